(** GraphFacts.v - graph.go. *)
From Verif Require Export SegFacts.
From Coq Require Import Lia ZifyBool Sorted Permutation.

Lemma node_ind' (P : node -> Prop) :
  (forall s k, (forall c, In c k -> P c) -> P (Node s k)) -> forall n, P n.
Proof.
  intros H. fix IH 1. intros [s k]. apply H. induction k as [|c k IHk]; [intros c []|].
  intros c' [<-|I]; [apply IH|apply IHk; exact I].
Qed.

Section Loop.
Context (rk : node -> node -> option (bool * node * node)) (a : node).
Fixpoint rloop (rest seen nodes : list node) (b : node) {struct rest} : option (bool * node * node) :=
  match rest with
  | [] => Some (true, Node (n_seg a) (go_stable node_less (nodes ++ [b])), b)
  | c :: rest' =>
    if tok_covers (n_tok b) (n_tok c) then
      match rk b c with
      | None => None
      | Some (false, b', c') => Some (false, Node (n_seg a) (seen ++ c' :: rest'), b')
      | Some (true, b', c') => rloop rest' (seen ++ [c']) nodes b'
      end
    else if tok_clashes (n_tok b) (n_tok c) then
      Some (false, Node (n_seg a) (seen ++ c :: rest'), b)
    else if tok_covers (n_tok c) (n_tok b) then
      match rk c b with
      | None => None
      | Some (ok, c', b') => Some (ok, Node (n_seg a) (seen ++ c' :: rest'), b')
      end
    else rloop rest' (seen ++ [c]) (nodes ++ [c]) b
  end.
End Loop.

Lemma rank_unfold n a b : rank (S n) a b =
  if tok_clashes (n_tok a) (n_tok b) then Some (false, a, b) else rloop (rank n) a (n_kids a) [] [] b.
Proof. reflexivity. Qed.

(* --------------------------------------------------------- token reasoning *)

Lemma left_trans a b c : ordered b -> left_of a b -> left_of b c -> ordered a -> ordered c -> left_of a c.
Proof. unfold left_of. tk. lia. Qed.
Lemma left_sides a b : ordered a -> ordered b ->
  tok_covers a b = false -> tok_covers b a = false -> tok_clashes a b = false -> left_of a b \/ left_of b a.
Proof. unfold left_of. tk. lia. Qed.

(** Sorting an antichain. *)
Definition lnode (a b : node) : Prop := left_of (n_tok a) (n_tok b).
Definition antichain (l : list node) : Prop :=
  (forall x, In x l -> ordered (n_tok x)) /\
  fop (fun x y => lnode x y \/ lnode y x) l.

Lemma fop_impl {A} (R R' : A -> A -> Prop) l : (forall x y, In x l -> In y l -> R x y -> R' x y) -> fop R l -> fop R' l.
Proof.
  intros H F. induction F as [|x l Fx F IH]; constructor.
  - intros y I. apply H; [left|right|]; auto.
  - apply IH. intros; apply H; auto; right; auto.
Qed.

Lemma sort_nodes l : antichain l ->
  StronglySorted lnode (go_stable node_less l) /\ Permutation (go_stable node_less l) l.
Proof.
  intros [O F].
  destruct (go_stable_spec node_less (fun x y => (ordered (n_tok x) /\ ordered (n_tok y)) /\ lnode x y)) with (l := l) as [S P].
  - intros x y z [[Ox Oy] H1] [[_ Oz] H2]. split; auto. unfold lnode in *. eapply (left_trans _ (n_tok y)); auto.
  - eapply fop_impl; [|exact F]. intros x y I J H. unfold fits_pair, node_less. split; intros E.
    + split; auto. destruct H as [H|H]; auto. exfalso.
      pose proof (O x I). pose proof (O y J). unfold lnode, left_of in H. tk. lia.
    + split; auto. destruct H as [H|H]; auto. exfalso.
      pose proof (O x I). pose proof (O y J). unfold lnode, left_of in H. tk. lia.
  - split; auto. eapply sorted_impl; [|exact S]. intros x y _ _ [_ H]. exact H.
Qed.

Lemma lnode_asym x y : ordered (n_tok x) -> ordered (n_tok y) -> lnode x y -> lnode y x -> False.
Proof. unfold lnode, left_of. tk. lia. Qed.

Lemma sorted_fop {A} (R : A -> A -> Prop) l : StronglySorted R l -> fop R l.
Proof.
  induction 1 as [|x l S IH F]; constructor; auto. rewrite Forall_forall in F. auto.
Qed.

Lemma sort_sorted l : (forall x, In x l -> ordered (n_tok x)) -> StronglySorted lnode l -> go_stable node_less l = l.
Proof.
  intros O S. destruct (sort_nodes l) as [S' P].
  { split; auto. eapply fop_impl; [|apply sorted_fop; exact S]. auto. }
  apply (sorted_unique (fun x y => (ordered (n_tok x) /\ ordered (n_tok y)) /\ lnode x y)); auto.
  - intros x y [[A B] H] [_ H']. exact (lnode_asym x y A B H H').
  - eapply sorted_impl; [|exact S']. intros x y I J H. split; auto.
    split; apply O; eapply (Permutation_in _ P); assumption.
  - eapply sorted_impl; [|exact S]. intros x y I J H. split; auto.
Qed.

(* ------------------------------------------------------------------ nested *)

Lemma nested_inv s k : nested (Node s k) -> ordered (s_tok s) /\ (forall c, In c k -> nested c) /\
  (forall c, In c k -> tok_covers (s_tok s) (n_tok c) = true) /\ StronglySorted lnode k.
Proof. intros H. inversion H; subst. auto. Qed.

Lemma nested_ordered n : nested n -> ordered (n_tok n).
Proof. intros H. inversion H; subst. auto. Qed.

Lemma in_below n x : In x (below n) <-> exists c, In c (n_kids n) /\ In x (flat c).
Proof. unfold below. apply in_flat_map. Qed.

Lemma flat_split n : flat n = n_seg n :: below n.
Proof. destruct n. reflexivity. Qed.

Lemma nested_covers n : nested n -> forall x, In x (flat n) -> ordered (s_tok x) /\ tok_covers (n_tok n) (s_tok x) = true.
Proof.
  induction n as [s k IH] using node_ind'. intros H x. apply nested_inv in H as (O & N & C & S).
  cbn [flat]. intros [<-|I]; [split; [auto|apply covers_refl]|].
  apply in_flat_map in I as (c & Ic & Ix). destruct (IH c Ic (N c Ic) x Ix) as [Ox Cx]. split; auto.
  eapply covers_trans; [|exact Cx]. apply C. exact Ic.
Qed.

(* -------------------------------------------------- collecting under b (new node) *)

(** rankNodes(b, c) while b collects the children it takes over. *)
Lemma rank_collect n sb kb c : ordered (n_tok c) -> ordered (s_tok sb) ->
  tok_covers (s_tok sb) (n_tok c) = true -> (forall d, In d kb -> ordered (n_tok d)) ->
  StronglySorted lnode (kb ++ [c]) ->
  rank (S n) (Node sb kb) c = Some (true, Node sb (kb ++ [c]), c).
Proof.
  intros Oc Ob C O S. rewrite rank_unfold. cbn [n_kids].
  replace (tok_clashes (n_tok (Node sb kb)) (n_tok c)) with false.
  2:{ unfold n_tok at 1. cbn [n_seg]. unfold tok_clashes. rewrite C. cbn. rewrite andb_false_r. reflexivity. }
  assert (L : forall d, In d kb -> lnode d c).
  { intros d I. apply sorted_app in S as (_ & _ & S). apply S; auto. left; auto. }
  assert (G : forall rest seen nodes, (forall d, In d rest -> In d kb) ->
    rloop (rank n) (Node sb kb) rest seen nodes c =
    Some (true, Node sb (go_stable node_less ((nodes ++ rest) ++ [c])), c)).
  { induction rest as [|d rest IH]; intros seen nodes H; cbn [rloop].
    - rewrite app_nil_r. reflexivity.
    - pose proof (L d (H d (or_introl eq_refl))) as Q. pose proof (O d (H d (or_introl eq_refl))) as Od.
      unfold lnode, left_of in Q. destruct Q as (Q1 & Q2 & Q3). rewrite Q3, Q2.
      replace (tok_clashes (n_tok c) (n_tok d)) with false by (tk; lia).
      rewrite IH by (intros; apply H; right; auto). rewrite <- (app_assoc nodes). reflexivity. }
  rewrite G by auto. cbn [app]. rewrite sort_sorted; auto.
  intros x I. apply in_app_or in I as [I|[<-|[]]]; auto.
Qed.

(* ----------------------------------------------------------- the main lemma *)

Definition disjoint_kid (b c : node) : Prop :=
  tok_covers (n_tok b) (n_tok c) = false /\ tok_clashes (n_tok b) (n_tok c) = false /\
  tok_covers (n_tok c) (n_tok b) = false.

Definition kept (b : segment) (l : list node) : list node :=
  filter (fun c => negb (tok_covers (s_tok b) (n_tok c))) l.
Definition taken (b : segment) (l : list node) : list node :=
  filter (fun c => tok_covers (s_tok b) (n_tok c)) l.

Lemma partition_perm {A} (p : A -> bool) l : Permutation (filter (fun x => negb (p x)) l ++ filter p l) l.
Proof.
  induction l as [|x l IH]; [constructor|]. cbn [filter]. destruct (p x); cbn [negb].
  - apply Permutation_sym. eapply Permutation_trans; [|apply Permutation_middle]. constructor. apply Permutation_sym. exact IH.
  - cbn. constructor. exact IH.
Qed.

Lemma flat_map_perm {A B} (f : A -> list B) l l' : Permutation l l' -> Permutation (flat_map f l) (flat_map f l').
Proof.
  induction 1 as [|x l l' P IH|x y l|l l2 l3 P1 IH1 P2 IH2]; cbn [flat_map].
  - constructor.
  - apply Permutation_app_head. exact IH.
  - rewrite !app_assoc. apply Permutation_app_tail, Permutation_app_comm.
  - eapply Permutation_trans; eauto.
Qed.

Lemma node_size_pos n : (0 < node_size n)%nat.
Proof. destruct n. cbn. lia. Qed.
Lemma kid_size s k c : In c k -> (node_size c < node_size (Node s k))%nat.
Proof.
  intros I. cbn [node_size]. induction k as [|d k IH]; [destruct I|]. cbn [fold_right].
  destruct I as [->|I]; [lia|]. specialize (IH I). lia.
Qed.

(** The loop when no child of [a] strictly covers or clashes with [b]. *)
Lemma rloop_all n sb a : forall rest seen kept0 taken0,
  ordered (s_tok sb) -> (0 < n)%nat ->
  (forall c, In c (taken0 ++ rest) -> ordered (n_tok c)) ->
  StronglySorted lnode (taken0 ++ rest) ->
  (forall c, In c rest -> tok_covers (s_tok sb) (n_tok c) = true \/
     tok_covers (s_tok sb) (n_tok c) = false /\ tok_clashes (s_tok sb) (n_tok c) = false /\
     tok_covers (n_tok c) (s_tok sb) = false) ->
  rloop (rank n) a rest seen kept0 (Node sb taken0) =
  Some (true, Node (n_seg a) (go_stable node_less ((kept0 ++ kept sb rest) ++ [Node sb (taken0 ++ taken sb rest)])),
        Node sb (taken0 ++ taken sb rest)).
Proof.
  induction rest as [|c rest IH]; intros seen kept0 taken0 Ob Hn O S H; cbn [rloop].
  - cbn [kept taken filter]. rewrite !app_nil_r. reflexivity.
  - unfold n_tok at 1 3 6. cbn [n_seg kept taken filter]. 
    destruct (H c (or_introl eq_refl)) as [Hc|(H1 & H2 & H3)].
    + rewrite Hc. cbn [negb]. destruct n as [|n]; [lia|].
      assert (S' : StronglySorted lnode (taken0 ++ [c])).
      { change (c :: rest) with ([c] ++ rest) in S. rewrite app_assoc in S. apply sorted_app in S. tauto. }
      rewrite rank_collect; auto.
      2:{ apply O, in_or_app. right. left. auto. }
      2:{ intros d I. apply O, in_or_app. auto. }
      rewrite IH; auto.
      * fold (kept sb rest) (taken sb rest). rewrite <- (app_assoc taken0). reflexivity.
      * rewrite <- app_assoc. exact O.
      * rewrite <- app_assoc. exact S.
      * intros d I. apply H. right; auto.
    + rewrite H1, H2, H3. cbn [negb]. rewrite IH; auto.
      * fold (kept sb rest) (taken sb rest). rewrite <- (app_assoc kept0). reflexivity.
      * intros d I. apply O. apply in_app_or in I as [I|I]; apply in_or_app; cbn; auto.
      * apply sorted_app in S as (S1 & S2 & S3). inversion S2; subst. apply sorted_app.
        split; [auto|split; [auto|]]. intros x y I J. apply S3; cbn; auto.
      * intros d I. apply H. right; auto.
Qed.

(** A child of [a] that strictly covers [b]: descend. *)
Lemma rloop_descend n sb a : forall rest1 c rest2 seen kept0,
  (forall d, In d rest1 -> tok_covers (s_tok sb) (n_tok d) = false /\
     tok_clashes (s_tok sb) (n_tok d) = false /\ tok_covers (n_tok d) (s_tok sb) = false) ->
  tok_covers (s_tok sb) (n_tok c) = false -> tok_covers (n_tok c) (s_tok sb) = true ->
  rloop (rank n) a (rest1 ++ c :: rest2) seen kept0 (Node sb []) =
  match rank n c (Node sb []) with
  | None => None
  | Some (ok, c', b') => Some (ok, Node (n_seg a) ((seen ++ rest1) ++ c' :: rest2), b')
  end.
Proof.
  induction rest1 as [|d rest1 IH]; intros c rest2 seen kept0 H H1 H2.
  - cbn [app rloop]. unfold n_tok at 1 3 6. cbn [n_seg]. rewrite H1.
    replace (tok_clashes (s_tok sb) (n_tok c)) with false
      by (unfold tok_clashes; rewrite H2; cbn; rewrite !andb_false_r; reflexivity).
    rewrite H2, app_nil_r. reflexivity.
  - cbn [app rloop]. unfold n_tok at 1 3 6. cbn [n_seg].
    destruct (H d (or_introl eq_refl)) as (A & B & C). rewrite A, B, C.
    rewrite IH; auto; [|intros; apply H; right; auto]. rewrite <- (app_assoc seen). reflexivity.
Qed.

(** A child of [a] that clashes with [b]: refuse. *)
Lemma rloop_clash n sb a : forall rest1 c rest2 seen kept0 taken0,
  ordered (s_tok sb) -> (0 < n)%nat ->
  (forall d, In d (taken0 ++ rest1) -> ordered (n_tok d)) ->
  StronglySorted lnode (taken0 ++ rest1) ->
  (forall d, In d rest1 -> tok_covers (s_tok sb) (n_tok d) = true \/
     tok_covers (s_tok sb) (n_tok d) = false /\ tok_clashes (s_tok sb) (n_tok d) = false /\
     tok_covers (n_tok d) (s_tok sb) = false) ->
  tok_clashes (s_tok sb) (n_tok c) = true ->
  exists b', rloop (rank n) a (rest1 ++ c :: rest2) seen kept0 (Node sb taken0) =
    Some (false, Node (n_seg a) (seen ++ rest1 ++ c :: rest2), b').
Proof.
  induction rest1 as [|d rest1 IH]; intros c rest2 seen kept0 taken0 Ob Hn O S H Hc.
  - cbn [app rloop]. unfold n_tok at 1 3 6. cbn [n_seg]. rewrite Hc.
    replace (tok_covers (s_tok sb) (n_tok c)) with false; [eauto|].
    symmetry. unfold tok_clashes in Hc. destruct (tok_covers (s_tok sb) (n_tok c)); auto.
    cbn in Hc. rewrite andb_false_r in Hc. discriminate.
  - cbn [app rloop]. unfold n_tok at 1 3 6. cbn [n_seg].
    destruct (H d (or_introl eq_refl)) as [Hd|(H1 & H2 & H3)].
    + rewrite Hd. destruct n as [|n]; [lia|].
      assert (S' : StronglySorted lnode (taken0 ++ [d])).
      { change (d :: rest1) with ([d] ++ rest1) in S. rewrite app_assoc in S. apply sorted_app in S. tauto. }
      rewrite rank_collect; auto.
      2:{ apply O, in_or_app. right. left. auto. }
      2:{ intros x I. apply O, in_or_app. auto. }
      destruct (IH c rest2 (seen ++ [d]) kept0 (taken0 ++ [d])) as [b' E]; auto.
      * rewrite <- app_assoc. exact O.
      * rewrite <- app_assoc. exact S.
      * intros x I. apply H. right; auto.
      * rewrite E. rewrite <- app_assoc. eauto.
    + rewrite H1, H2, H3.
      destruct (IH c rest2 (seen ++ [d]) (kept0 ++ [d]) taken0) as [b' E]; auto.
      * intros x I. apply O. apply in_app_or in I as [I|I]; apply in_or_app; cbn; auto.
      * apply sorted_app in S as (S1 & S2 & S3). inversion S2; subst. apply sorted_app.
        split; [auto|split; [auto|]]. intros x y I J. apply S3; cbn; auto.
      * intros x I. apply H. right; auto.
      * rewrite E. rewrite <- app_assoc. eauto.
Qed.

(** First child that is neither taken over nor disjoint, if any. *)
Lemma first_bad sb (k : list node) :
  (forall c, In c k -> tok_covers (s_tok sb) (n_tok c) = true \/
     tok_covers (s_tok sb) (n_tok c) = false /\ tok_clashes (s_tok sb) (n_tok c) = false /\
     tok_covers (n_tok c) (s_tok sb) = false) \/
  exists k1 c k2, k = k1 ++ c :: k2 /\
    (forall d, In d k1 -> tok_covers (s_tok sb) (n_tok d) = true \/
       tok_covers (s_tok sb) (n_tok d) = false /\ tok_clashes (s_tok sb) (n_tok d) = false /\
       tok_covers (n_tok d) (s_tok sb) = false) /\
    tok_covers (s_tok sb) (n_tok c) = false /\
    (tok_clashes (s_tok sb) (n_tok c) = true \/ tok_covers (n_tok c) (s_tok sb) = true).
Proof.
  induction k as [|c k IH]; [left; intros c []|].
  destruct (tok_covers (s_tok sb) (n_tok c)) eqn:E1.
  - destruct IH as [IH|(k1 & d & k2 & -> & H1 & H2 & H3)].
    + left. intros d [<-|I]; auto.
    + right. exists (c :: k1), d, k2. repeat split; auto. intros x [<-|I]; auto.
  - destruct (tok_clashes (s_tok sb) (n_tok c)) eqn:E2.
    { right. exists [], c, k. split; [reflexivity|]. split; [intros d []|]. auto. }
    destruct (tok_covers (n_tok c) (s_tok sb)) eqn:E3.
    { right. exists [], c, k. split; [reflexivity|]. split; [intros d []|]. auto. }
    destruct IH as [IH|(k1 & d & k2 & -> & H1 & H2 & H3)].
    + left. intros d [<-|I]; auto.
    + right. exists (c :: k1), d, k2. repeat split; auto. intros x [<-|I]; auto.
Qed.

Lemma clash_inside_disjoint b c x : ordered b -> ordered c -> ordered x -> tok_covers c x = true ->
  tok_covers b c = false -> tok_clashes b c = false -> tok_covers c b = false -> tok_clashes x b = false.
Proof. tk. lia. Qed.

Lemma rank_insert n : forall a sb, (node_size a < n)%nat -> nested a -> ordered (s_tok sb) ->
  tok_covers (n_tok a) (s_tok sb) = true ->
  exists ok a' b', rank n a (Node sb []) = Some (ok, a', b') /\
    (ok = false -> a' = a /\ exists x, In x (below a) /\ tok_clashes (s_tok x) (s_tok sb) = true) /\
    (ok = true -> nested a' /\ n_seg a' = n_seg a /\ Permutation (below a') (sb :: below a) /\
       forall x, In x (below a) -> tok_clashes (s_tok x) (s_tok sb) = false).
Proof.
  induction n as [|n IH]; intros a sb Hn N Ob C; [lia|].
  destruct a as [sa k]. apply nested_inv in N as (Oa & Nk & Ck & Sk).
  unfold n_tok in C. cbn [n_seg] in C.
  rewrite rank_unfold. cbn [n_kids].
  replace (tok_clashes (n_tok (Node sa k)) (n_tok (Node sb []))) with false.
  2:{ unfold n_tok. cbn [n_seg]. unfold tok_clashes. rewrite C. cbn. rewrite andb_false_r. reflexivity. }
  assert (Ok : forall c, In c k -> ordered (n_tok c)) by (intros c I; apply nested_ordered, Nk, I).
  assert (Hn0 : k <> [] -> (0 < n)%nat).
  { intros Hk. cbn [node_size] in Hn. destruct k as [|c k']; [congruence|]. cbn [fold_right] in Hn.
    pose proof (node_size_pos c). lia. }
  destruct (first_bad sb k) as [ALL|(k1 & c & k2 & E & H1 & H2 & H3)].
  - (* b becomes a child of a *)
    assert (R : rloop (rank n) (Node sa k) k [] [] (Node sb []) =
       Some (true, Node sa (go_stable node_less (kept sb k ++ [Node sb (taken sb k)])), Node sb (taken sb k))).
    { destruct k as [|c0 k0] eqn:Ek; [reflexivity|]. rewrite <- Ek in *.
      apply (rloop_all n sb (Node sa k) k [] [] []); auto. apply Hn0. subst; discriminate. }
    rewrite R. eexists _, _, _. split; [reflexivity|]. split; [discriminate|]. intros _.
    assert (AC : antichain (kept sb k ++ [Node sb (taken sb k)])).
    { split.
      - intros x I. apply in_app_or in I as [I|[<-|[]]]; [|exact Ob]. apply filter_In in I. apply Ok, I.
      - apply fop_app. split; [|split].
        + eapply fop_impl; [|apply sorted_fop, sorted_filter; exact Sk]. auto.
        + constructor; [intros y []|constructor].
        + intros x y I [<-|[]]. apply filter_In in I as [I Q].
          destruct (ALL x I) as [A|(A1 & A2 & A3)]; [rewrite A in Q; discriminate|].
          unfold lnode. unfold n_tok at 2 3. cbn [n_seg].
          destruct (left_sides (s_tok sb) (n_tok x)) as [L|L]; auto. }
    destruct (sort_nodes _ AC) as [S' P'].
    assert (IN : forall x, In x (go_stable node_less (kept sb k ++ [Node sb (taken sb k)])) ->
              In x k \/ x = Node sb (taken sb k)).
    { intros x I. apply (Permutation_in _ P') in I. apply in_app_or in I as [I|[<-|[]]]; auto.
      apply filter_In in I. left; apply I. }
    split; [|split; [reflexivity|split]].
    + constructor; auto.
      * intros x I. destruct (IN x I) as [J| ->]; auto. constructor; auto.
        -- intros d J. apply filter_In in J. apply Nk, J.
        -- intros d J. apply filter_In in J. apply J.
        -- apply sorted_filter. exact Sk.
      * intros x I. destruct (IN x I) as [J| ->]; auto.
    + unfold below. cbn [n_kids].
      eapply Permutation_trans; [apply flat_map_perm; exact P'|].
      rewrite flat_map_app. cbn [flat_map flat]. rewrite app_nil_r.
      eapply Permutation_trans; [apply Permutation_sym, Permutation_middle|]. constructor.
      rewrite <- flat_map_app. apply flat_map_perm. apply partition_perm.
    + intros x I. apply in_below in I as (c & Ic & Ix). cbn [n_kids] in Ic.
      destruct (nested_covers c (Nk c Ic) x Ix) as [Ox Cx].
      destruct (ALL c Ic) as [A|(A1 & A2 & A3)].
      * assert (tok_covers (s_tok sb) (s_tok x) = true) by (eapply covers_trans; eauto). tk. lia.
      * eapply (clash_inside_disjoint (s_tok sb) (n_tok c)); auto.
  - assert (Ic : In c k) by (rewrite E; apply in_or_app; right; left; auto).
    assert (Hpos : (0 < n)%nat) by (apply Hn0; intros ->; destruct Ic).
    assert (Sk1 : StronglySorted lnode k1) by (rewrite E in Sk; apply sorted_app in Sk; tauto).
    destruct (tok_clashes (s_tok sb) (n_tok c)) eqn:Cl.
    + (* clash *)
      destruct (rloop_clash n sb (Node sa k) k1 c k2 [] [] []) as [b' R]; auto.
      { intros d I. apply Ok. rewrite E. apply in_or_app; auto. }
      rewrite <- E in R. cbn [app n_seg] in R. rewrite R.
      eexists _, _, _. split; [reflexivity|]. split; [|discriminate]. intros _.
      split; [reflexivity|]. exists (n_seg c). split.
      * apply in_below. exists c. split; auto. rewrite flat_split. left; auto.
      * unfold n_tok in Cl. pose proof (Ok c Ic) as Oc. unfold n_tok in Oc. tk. lia.
    + (* c strictly covers b *)
      destruct H3 as [H3|H3]; [congruence|].
      assert (OTH : forall d, In d (k1 ++ k2) -> (lnode d c \/ lnode c d) /\ In d k).
      { intros d I. rewrite E in *. apply sorted_app in Sk as (_ & S2 & S3). inversion S2 as [|? ? S4 F4]; subst.
        rewrite Forall_forall in F4. apply in_app_or in I as [I|I].
        - split; [left; apply S3; cbn; auto|apply in_or_app; auto].
        - split; [right; auto|apply in_or_app; right; right; auto]. }
      assert (K1 : forall d, In d k1 -> tok_covers (s_tok sb) (n_tok d) = false /\
        tok_clashes (s_tok sb) (n_tok d) = false /\ tok_covers (n_tok d) (s_tok sb) = false).
      { intros d I. destruct (OTH d (in_or_app _ _ _ (or_introl I))) as [Q J].
        pose proof (Ok d J). pose proof (Ok c Ic). pose proof (H1 d I). unfold lnode, left_of in Q. tk. lia. }
      assert (NC : forall d x, In d (k1 ++ k2) -> In x (flat d) -> tok_clashes (s_tok x) (s_tok sb) = false).
      { intros d x I Ix. destruct (OTH d I) as [Q J]. destruct (nested_covers d (Nk d J) x Ix) as [Ox Cx].
        pose proof (Ok d J). pose proof (Ok c Ic). unfold lnode, left_of in Q. tk. lia. }
      pose proof (rloop_descend n sb (Node sa k) k1 c k2 [] []) as R. rewrite <- E in R.
      rewrite R; auto. clear R.
      destruct (IH c sb) as (ok & c' & b' & R & F & T); auto.
      { pose proof (kid_size sa k c Ic). lia. }
      rewrite R. cbn [app n_seg]. eexists _, _, _. split; [reflexivity|]. split.
      * intros ->. destruct (F eq_refl) as [-> (x & Ix & Cx)]. rewrite E. split; auto.
        exists x. split; auto. apply in_below. exists c. split; [cbn [n_kids]; auto|].
        -- apply in_or_app. right. left. auto.
        -- rewrite flat_split. right; auto.
      * intros ->. destruct (T eq_refl) as (Nc & Sc & Pc & Cc).
        assert (IN : forall d, In d (k1 ++ c' :: k2) -> d = c' \/ In d k).
        { intros d I. rewrite E. apply in_app_or in I as [I|[<-|I]]; auto; right; apply in_or_app; cbn; auto. }
        assert (Tc : n_tok c' = n_tok c) by (unfold n_tok; rewrite Sc; reflexivity).
        split; [|split; [reflexivity|split]].
        -- constructor; auto.
           ++ intros d I. destruct (IN d I) as [->|J]; auto.
           ++ intros d I. destruct (IN d I) as [->|J]; auto. rewrite Tc. auto.
           ++ rewrite E in Sk. fold (@lnode). apply sorted_app in Sk as (S1 & S2 & S3).
              inversion S2 as [|? ? S4 F4]; subst. apply sorted_app. split; [auto|]. split.
              ** constructor; auto. rewrite Forall_forall in *. intros d I. unfold lnode. rewrite Tc. apply F4, I.
              ** intros x y I [<-|J]; [unfold lnode; rewrite Tc; apply S3; cbn; auto|apply S3; cbn; auto].
        -- unfold below. cbn [n_kids]. rewrite E, !flat_map_app. cbn [flat_map].
           rewrite !flat_split, Sc. cbn [app].
           eapply Permutation_trans; [|apply Permutation_sym, (Permutation_middle (flat_map flat k1) (n_seg c :: below c ++ flat_map flat k2) sb)].
           apply Permutation_app_head. eapply Permutation_trans; [|apply perm_swap]. constructor.
           change (sb :: below c ++ flat_map flat k2) with ((sb :: below c) ++ flat_map flat k2).
           apply Permutation_app_tail. exact Pc.
        -- intros x I. apply in_below in I as (d & Id & Ix). cbn [n_kids] in Id.
           rewrite E in Id. apply in_app_or in Id as [Id|[<-|Id]].
           ++ apply (NC d); auto. apply in_or_app; auto.
           ++ rewrite flat_split in Ix. destruct Ix as [<-|Ix]; [|apply Cc; auto].
              unfold n_tok in H3. unfold tok_clashes. rewrite H3. cbn. rewrite ?andb_false_r. reflexivity.
           ++ apply (NC d); auto. apply in_or_app; auto.
Qed.

(* ------------------------------------------------------------------ Append *)

Lemma set_tok_same n : set_tok (n_tok n) n = n.
Proof. destruct n as [[i t] k]. reflexivity. Qed.
Lemma set_tok_twice t u n : set_tok t (set_tok u n) = set_tok t n.
Proof. reflexivity. Qed.
Lemma node_size_set t n : node_size (set_tok t n) = node_size n.
Proof. destruct n. reflexivity. Qed.

Lemma nested_widen t n : ordered t -> nested n -> (n_kids n = [] \/ tok_covers t (n_tok n) = true) -> nested (set_tok t n).
Proof.
  destruct n as [s k]. intros O N H. apply nested_inv in N as (Os & Nk & Ck & Sk). unfold set_tok. cbn [n_kids n_seg] in *.
  constructor; auto. intros c I. cbn [s_tok]. destruct H as [->|H]; [destruct I|].
  eapply covers_trans; [exact H|]. auto.
Qed.

(** The root token during the call. *)
Definition wide (g : node) (x : segment) : token :=
  if tok_covers (n_tok g) (s_tok x) then n_tok g
  else match n_kids g with _ :: _ => tok_merge (n_tok g) (s_tok x) | [] => s_tok x end.

Lemma append_spec g x : nested g -> ordered (s_tok x) ->
  exists g' ok, graph_append g x = Some (g', ok) /\
    (ok = false -> g' = g /\ exists y, In y (below g) /\ tok_clashes (s_tok y) (s_tok x) = true) /\
    (ok = true -> nested g' /\ s_info (n_seg g') = s_info (n_seg g) /\ n_tok g' = wide g x /\
       Permutation (below g') (x :: below g) /\
       forall y, In y (below g) -> tok_clashes (s_tok y) (s_tok x) = false).
Proof.
  intros N O. pose proof (nested_ordered g N) as Og.
  assert (E : (if negb (tok_covers (n_tok g) (n_tok (Node x [])))
    then match n_kids g with _ :: _ => set_tok (tok_merge (n_tok g) (s_tok x)) g | [] => set_tok (s_tok x) g end
    else g) = set_tok (wide g x) g).
  { unfold wide. unfold n_tok at 2. cbn [n_seg]. destruct (tok_covers (n_tok g) (s_tok x)); cbn [negb].
    - symmetry. apply set_tok_same.
    - destruct (n_kids g); reflexivity. }
  assert (W : ordered (wide g x) /\ tok_covers (wide g x) (s_tok x) = true /\
              (n_kids g = [] \/ tok_covers (wide g x) (n_tok g) = true)).
  { unfold wide. destruct (tok_covers (n_tok g) (s_tok x)) eqn:C.
    - split; [auto|split; [auto|right; apply covers_refl]].
    - destruct (n_kids g) eqn:K; [split; [auto|split; [apply covers_refl|auto]]|].
      clear C. destruct (merge_props (n_tok g) (s_tok x)) as (M1 & M2 & M3 & M4); auto. }
  destruct W as (W1 & W2 & W3).
  destruct (rank_insert (node_size (set_tok (wide g x) g) + node_size (Node x [])) (set_tok (wide g x) g) x)
    as (ok & a' & b' & R & F & T); auto.
  { cbn [node_size fold_right]. lia. }
  { apply nested_widen; auto. }
  unfold graph_append. rewrite E. cbv zeta. rewrite R. eexists _, ok. split; [reflexivity|]. split.
  - intros ->. destruct (F eq_refl) as [-> H]. rewrite set_tok_twice, set_tok_same. split; auto.
  - intros ->. destruct (T eq_refl) as (H1 & H2 & H3 & H4). split; [auto|]. rewrite H2.
    split; [reflexivity|]. split; [unfold n_tok; rewrite H2; reflexivity|]. auto.
Qed.

Lemma history_facts name acc g : history name acc g ->
  nested g /\ s_info (n_seg g) = name /\ Permutation (below g) acc /\
  (acc = [] -> g = new_graph name) /\ (acc <> [] -> hull (n_tok g) acc) /\
  (forall x, In x acc -> ordered (s_tok x)).
Proof.
  induction 1 as [|acc g x g' H IH O E|acc g x g' H IH O E].
  - split; [|split; [reflexivity|split; [constructor|split; [auto|split; [congruence|intros x []]]]]].
    constructor; [cbn; unfold ordered; cbn; lia|intros c []|intros c []|constructor].
  - destruct IH as (N & I & P & Z & HU & OA). destruct (append_spec g x N O) as (g1 & ok & E1 & _ & T).
    rewrite E in E1. injection E1 as <- <-. destruct (T eq_refl) as (N' & I' & W & P' & _).
    split; [auto|]. split; [congruence|]. split.
    { eapply Permutation_trans; [exact P'|]. eapply Permutation_trans; [apply perm_skip; exact P|].
      apply Permutation_cons_append. }
    split; [intros Q; destruct acc; discriminate|]. split.
    2:{ intros y J. apply in_app_or in J as [J|[<-|[]]]; auto. }
    intros _. rewrite W. unfold wide. destruct acc as [|y acc'].
    + rewrite (Z eq_refl). unfold new_graph, n_tok at 1. cbn [n_seg s_tok n_kids app].
      destruct (tok_covers (mkTok 0 0) (s_tok x)) eqn:C.
      * assert (mkTok 0 0 = s_tok x) as Q. { apply covers_antisym; auto. clear -C O. destruct x as [i [a b]]. tk. lia. }
        unfold n_tok. cbn [n_seg s_tok]. rewrite Q. split; [intros z [<-|[]]; apply covers_refl|].
        intros u Hu. apply Hu. left; auto.
      * split; [intros z [<-|[]]; apply covers_refl|]. intros u Hu. apply Hu. left; auto.
    + destruct (HU ltac:(discriminate)) as [H1 H2].
      assert (K : n_kids g <> []).
      { intros K. apply Permutation_length in P. unfold below in P. rewrite K in P. discriminate. }
      destruct (tok_covers (n_tok g) (s_tok x)) eqn:C.
      * split; [intros z J; apply in_app_or in J as [J|[<-|[]]]; auto|].
        intros u Hu. apply H2. intros z J. apply Hu, in_or_app. auto.
      * destruct (n_kids g) as [|k0 ks] eqn:EK; [congruence|].
        destruct (merge_props (n_tok g) (s_tok x)) as (M1 & M2 & M3 & M4); auto.
        split.
        -- intros z J. apply in_app_or in J as [J|[<-|[]]]; auto. eapply covers_trans; [|apply H1; exact J]. auto.
        -- intros u Hu. apply M4; [apply H2; intros z J|]; apply Hu, in_or_app; cbn; auto.
  - destruct IH as (N & I & P & Z & HU & OA). destruct (append_spec g x N O) as (g1 & ok & E1 & F & _).
    rewrite E in E1. injection E1 as <- <-. destruct (F eq_refl) as [-> _]. tauto.
Qed.

Lemma history_append name acc g x : history name acc g -> ordered (s_tok x) ->
  exists g' ok, graph_append g x = Some (g', ok) /\
   (ok = true <-> forall y, In y acc -> tok_clashes (s_tok y) (s_tok x) = false) /\
   (ok = false -> g' = g).
Proof.
  intros H O. destruct (history_facts _ _ _ H) as (N & I & P & _).
  destruct (append_spec g x N O) as (g' & ok & E & F & T). exists g', ok. split; [auto|]. split.
  - split.
    + intros ->. destruct (T eq_refl) as (_ & _ & _ & _ & C). intros y J. apply C.
      eapply Permutation_in; [apply Permutation_sym; exact P|exact J].
    + intros C. destruct ok; auto. destruct (F eq_refl) as (_ & y & J & Cy).
      rewrite C in Cy; [discriminate|]. eapply Permutation_in; [exact P|exact J].
  - intros ->. apply F. reflexivity.
Qed.

(* ---------------------------------------------------------------- preorder *)

Lemma nested_preorder n : nested n -> StronglySorted covers_or_before (flat n).
Proof.
  induction n as [s k IH] using node_ind'. intros H. pose proof H as H0. apply nested_inv in H as (O & N & C & S).
  cbn [flat]. constructor.
  - clear H0 C. induction k as [|c k IHk]; cbn [flat_map]; [constructor|].
    inversion S as [|? ? S1 F1]; subst. apply sorted_app. split; [apply IH; [left|apply N; left]; auto|]. split.
    + apply IHk; auto; intros; [apply IH|apply N]; auto; right; auto.
    + intros x y I J. apply in_flat_map in J as (d & Jd & Jy). rewrite Forall_forall in F1.
      specialize (F1 d Jd). destruct (nested_covers c (N c (or_introl eq_refl)) x I) as [Ox Cx].
      destruct (nested_covers d (N d (or_intror Jd)) y Jy) as [Oy Cy].
      right. unfold lnode, left_of in F1. tk. lia.
  - rewrite Forall_forall. intros x I. left. apply (nested_covers _ H0 x). right. exact I.
Qed.

Definition pre_strict (x y : segment) : Prop :=
  (nonempty (s_tok x) /\ nonempty (s_tok y) /\ s_tok x <> s_tok y) /\ covers_or_before x y.
Lemma pre_strict_asym x y : pre_strict x y -> pre_strict y x -> False.
Proof.
  unfold pre_strict. intros ((A & B & N) & H) (_ & H'). apply N. apply tok_ext.
  - unfold covers_or_before in *. clear N. tk. lia.
  - unfold covers_or_before in *. clear N. tk. lia.
Qed.
Lemma strict_sorted l : (forall x, In x l -> nonempty (s_tok x)) -> NoDup (map s_tok l) ->
  StronglySorted covers_or_before l -> StronglySorted pre_strict l.
Proof.
  intros O ND S. induction S as [|x l S IH F]; constructor.
  - apply IH; [intros; apply O; right; auto|]. inversion ND; auto.
  - rewrite Forall_forall in *. intros y I. split; [|apply F; auto].
    split; [apply O; left; auto|]. split; [apply O; right; auto|].
    intros E. inversion ND as [|? ? NI _]; subst. apply NI. rewrite E. apply in_map. exact I.
Qed.

(** A forest is determined by its preorder. *)
Lemma forest_unique n : forall k1 k2, (length (flat_map flat k1) < n)%nat ->
  (forall c, In c k1 -> nested c) -> (forall c, In c k2 -> nested c) ->
  StronglySorted lnode k1 -> StronglySorted lnode k2 ->
  (forall x, In x (flat_map flat k1) -> nonempty (s_tok x)) ->
  flat_map flat k1 = flat_map flat k2 -> k1 = k2.
Proof.
  induction n as [|n IH]; intros k1 k2 L N1 N2 S1 S2 NE E; [lia|].
  destruct k1 as [|[s c1] r1], k2 as [|[s' c2] r2]; cbn [flat_map flat app] in E; try discriminate; auto.
  injection E as <- E.
  pose proof (nested_inv _ _ (N1 _ (or_introl eq_refl))) as (O & Nc1 & Cc1 & Sc1).
  pose proof (nested_inv _ _ (N2 _ (or_introl eq_refl))) as (_ & Nc2 & Cc2 & Sc2).
  assert (NEr : forall x, In x (flat_map flat c1 ++ flat_map flat r1) -> nonempty (s_tok x)).
  { intros x I. apply NE. cbn [flat_map flat app]. right. exact I. }
  assert (SPLIT : forall c r, (forall d, In d c -> nested d) -> (forall d, In d r -> nested d) ->
     (forall d, In d c -> tok_covers (s_tok s) (n_tok d) = true) ->
     (forall d, In d r -> left_of (s_tok s) (n_tok d)) ->
     (forall x, In x (flat_map flat c ++ flat_map flat r) -> nonempty (s_tok x)) ->
     filter (fun x => tok_covers (s_tok s) (s_tok x)) (flat_map flat c ++ flat_map flat r) = flat_map flat c /\
     filter (fun x => negb (tok_covers (s_tok s) (s_tok x))) (flat_map flat c ++ flat_map flat r) = flat_map flat r).
  { clear -O. intros c r Nc Nr C L NE.
    assert (A : forall x, In x (flat_map flat c) -> tok_covers (s_tok s) (s_tok x) = true).
    { intros x I. apply in_flat_map in I as (d & Id & Ix). eapply covers_trans; [apply C; eauto|].
      apply (nested_covers d (Nc d Id)). exact Ix. }
    assert (B : forall x, In x (flat_map flat r) -> tok_covers (s_tok s) (s_tok x) = false).
    { intros x I. assert (NEx : nonempty (s_tok x)) by (apply NE, in_or_app; auto).
      apply in_flat_map in I as (d & Id & Ix). specialize (L d Id).
      destruct (nested_covers d (Nr d Id) x Ix) as [Ox Cx]. pose proof (nested_ordered _ (Nr d Id)).
      unfold left_of in L. tk. lia. }
    clear -A B. rewrite !filter_app.
    assert (FT : forall (p : segment -> bool) l, (forall x, In x l -> p x = true) -> filter p l = l).
    { clear. intros p l H. induction l as [|x l IH]; auto. cbn [filter]. rewrite H by (left; auto).
      f_equal. apply IH. intros; apply H; right; auto. }
    assert (FF : forall (p : segment -> bool) l, (forall x, In x l -> p x = false) -> filter p l = []).
    { clear. intros p l H. induction l as [|x l IH]; auto. cbn [filter]. rewrite H by (left; auto).
      apply IH. intros; apply H; right; auto. }
    split.
    - rewrite (FT _ (flat_map flat c)), (FF _ (flat_map flat r)), app_nil_r; auto.
    - rewrite (FF _ (flat_map flat c)), (FT _ (flat_map flat r)); auto.
      + intros x I. rewrite B; auto.
      + intros x I. rewrite A; auto. }
  assert (L1 : forall d, In d r1 -> left_of (s_tok s) (n_tok d)).
  { inversion S1 as [|? ? _ F]; subst. rewrite Forall_forall in F. intros d I. apply (F d I). }
  assert (L2 : forall d, In d r2 -> left_of (s_tok s) (n_tok d)).
  { inversion S2 as [|? ? _ F]; subst. rewrite Forall_forall in F. intros d I. apply (F d I). }
  destruct (SPLIT c1 r1) as [A1 B1]; auto. { intros; apply N1; right; auto. }
  destruct (SPLIT c2 r2) as [A2 B2]; auto. { intros; apply N2; right; auto. } { rewrite <- E. auto. }
  rewrite E in A1, B1. rewrite A2 in A1. rewrite B2 in B1.
  cbn [flat_map flat app length] in L. rewrite app_length in L.
  f_equal; [f_equal|]; apply IH; auto; try lia.
  - intros x I. apply NEr, in_or_app; auto.
  - intros; apply N1; right; auto.
  - intros; apply N2; right; auto.
  - inversion S1; auto.
  - inversion S2; auto.
  - intros x I. apply NEr, in_or_app; auto.
Qed.

Lemma hull_unique t u l l' : ordered t -> ordered u -> Permutation l l' -> hull t l -> hull u l' -> t = u.
Proof.
  intros Ot Ou P [A B] [C D]. apply covers_antisym; auto.
  - apply D. intros x I. apply A. eapply Permutation_in; [apply Permutation_sym; exact P|exact I].
  - apply B. intros x I. apply C. eapply Permutation_in; [exact P|exact I].
Qed.

Lemma shape_unique name acc acc' g g' : history name acc g -> history name acc' g' ->
  Permutation acc acc' -> (forall x, In x acc -> nonempty (s_tok x)) -> NoDup (map s_tok acc) -> g = g'.
Proof.
  intros H H' P NE ND.
  destruct (history_facts _ _ _ H) as (N & I & PB & Z & HU & _).
  destruct (history_facts _ _ _ H') as (N' & I' & PB' & Z' & HU' & _).
  destruct g as [s k], g' as [s' k']. pose proof (nested_inv _ _ N) as (O & Nk & Ck & Sk).
  pose proof (nested_inv _ _ N') as (O' & Nk' & Ck' & Sk').
  assert (ES : s = s').
  { destruct s as [i t], s' as [i' t']. cbn [n_seg s_info] in *. subst i i'. f_equal.
    destruct acc as [|x acc].
    - apply Permutation_nil in P. subst acc'. specialize (Z eq_refl). specialize (Z' eq_refl). unfold new_graph in *. congruence.
    - eapply hull_unique; [exact O|exact O'|exact P|apply HU; discriminate|apply HU'].
      intros ->. apply Permutation_sym, Permutation_nil in P. discriminate. }
  subst s'. f_equal.
  assert (NEk : forall x, In x (flat_map flat k) -> nonempty (s_tok x)).
  { intros x J. apply NE. eapply Permutation_in; [exact PB|exact J]. }
  assert (EF : flat_map flat k = flat_map flat k').
  { apply (sorted_unique pre_strict pre_strict_asym).
    - apply strict_sorted; auto.
      + eapply Permutation_NoDup; [|exact ND]. apply Permutation_map, Permutation_sym. exact PB.
      + pose proof (nested_preorder _ N) as Q. inversion Q; auto.
    - apply strict_sorted; auto.
      + intros x J. apply NE. eapply Permutation_in; [|exact J].
        eapply Permutation_trans; [exact PB'|apply Permutation_sym; exact P].
      + eapply Permutation_NoDup; [|exact ND]. apply Permutation_map.
        eapply Permutation_trans; [exact P|apply Permutation_sym; exact PB'].
      + pose proof (nested_preorder _ N') as Q. inversion Q; auto.
    - eapply Permutation_trans; [exact PB|]. eapply Permutation_trans; [exact P|apply Permutation_sym; exact PB']. }
  eapply forest_unique; eauto.
Qed.

(** BuildGraph is a history. *)
Lemma append_all_history name segs : forall acc g, history name acc g ->
  (forall x, In x segs -> ordered (s_tok x)) ->
  exists g' acc', append_all g segs = Some g' /\ history name (acc ++ acc') g' /\
   (forall x, In x acc' -> In x segs) /\
   ((forall x y, In x (acc ++ segs) -> In y (acc ++ segs) -> tok_clashes (s_tok x) (s_tok y) = false) -> acc' = segs).
Proof.
  induction segs as [|x segs IH]; intros acc g H O; cbn [append_all].
  - exists g, []. rewrite app_nil_r. auto.
  - destruct (history_append name acc g x H (O x (or_introl eq_refl))) as (g1 & ok & E & T & _). rewrite E.
    destruct ok.
    + destruct (IH (acc ++ [x]) g1) as (g' & acc' & E' & H' & S & A).
      { eapply hi_yes; eauto. apply O; left; auto. } { intros; apply O; right; auto. }
      exists g', (x :: acc'). rewrite <- app_assoc in H'. split; [auto|]. split; [exact H'|]. split.
      * intros y [<-|I]; cbn; auto.
      * intros Q. f_equal. apply A. intros y z I J. apply Q; rewrite <- app_assoc in *; auto.
    + destruct (IH acc g1) as (g' & acc' & E' & H' & S & A).
      { eapply hi_no; eauto. apply O; left; auto. } { intros; apply O; right; auto. }
      exists g', acc'. split; [auto|]. split; [exact H'|]. split; [intros; right; auto|].
      intros Q. exfalso. assert (false = true); [|discriminate]. apply T. intros y I. apply Q; apply in_or_app; cbn; auto.
Qed.

(* ------------------------------------------------------- Equal, Leafs, FlameStack *)

Lemma seg_eqb_eq a b : seg_eqb a b = true <-> a = b.
Proof.
  unfold seg_eqb. rewrite andb_true_iff, tok_eqb_eq. destruct a, b. cbn. rewrite bytes_eqb_eq.
  split; [intros [-> ->]; auto|intros E; injection E; auto].
Qed.

Lemma node_equal_eq n : forall m, node_equal n m = true <-> n = m.
Proof.
  induction n as [s k IH] using node_ind'. intros [s' k']. cbn [node_equal].
  rewrite andb_true_iff, seg_eqb_eq.
  match goal with |- _ /\ ?f k k' = true <-> _ => assert (G : forall k', f k k' = true <-> k = k') end.
  { clear k'. induction k as [|c k IHk]; intros [|c' k']; try (split; [discriminate|congruence]); [tauto|].
    rewrite andb_true_iff, (IH c (or_introl eq_refl)), IHk by (intros; apply IH; right; auto).
    split; [intros [-> ->]; auto|intros E; injection E; auto]. }
  rewrite G. split; [intros [-> ->]; auto|intros E; injection E; auto].
Qed.


Lemma filter_flat_map {A B} (f : A -> list B) p l : filter p (flat_map f l) = flat_map (fun x => filter p (f x)) l.
Proof. induction l as [|x l IH]; auto. cbn [flat_map]. rewrite filter_app, IH. reflexivity. Qed.
Lemma map_flat_map {A B C} (f : A -> list B) (g : B -> C) l : map g (flat_map f l) = flat_map (fun x => map g (f x)) l.
Proof. induction l as [|x l IH]; auto. cbn [flat_map]. rewrite map_app, IH. reflexivity. Qed.
Lemma flat_map_ext_in {A B} (f g : A -> list B) l : (forall x, In x l -> f x = g x) -> flat_map f l = flat_map g l.
Proof.
  induction l as [|x l IH]; auto. intros H. cbn [flat_map]. rewrite H by (left; auto). f_equal.
  apply IH. intros; apply H; right; auto.
Qed.

Lemma leafs_nodes n : leafs n = map n_seg (filter childless (nodes n)).
Proof.
  induction n as [s k IH] using node_ind'. destruct k as [|c k]; [reflexivity|].
  change (leafs (Node s (c :: k))) with (flat_map leafs (c :: k)).
  change (nodes (Node s (c :: k))) with (Node s (c :: k) :: flat_map nodes (c :: k)).
  cbn [filter]. change (childless (Node s (c :: k))) with false. cbv iota.
  rewrite filter_flat_map, map_flat_map. apply flat_map_ext_in. exact IH.
Qed.

Lemma nodes_flat n : map n_seg (nodes n) = flat n.
Proof.
  induction n as [s k IH] using node_ind'. cbn [nodes flat map n_seg]. f_equal.
  rewrite map_flat_map. apply flat_map_ext_in. exact IH.
Qed.

Lemma leafs_flat n x : In x (leafs n) -> In x (flat n).
Proof.
  rewrite leafs_nodes, <- nodes_flat. intros I. apply in_map_iff in I as (m & <- & J).
  apply filter_In in J. apply in_map, J.
Qed.

Lemma leafs_sorted n : nested n -> StronglySorted (fun x y => tok_before (s_tok x) (s_tok y) = true) (leafs n).
Proof.
  induction n as [s k IH] using node_ind'. intros H. apply nested_inv in H as (O & N & C & S).
  destruct k as [|c0 k0]; [repeat constructor|].
  change (leafs (Node s (c0 :: k0))) with (flat_map leafs (c0 :: k0)).
  clear C. induction (c0 :: k0) as [|c k IHk]; cbn [flat_map]; [constructor|].
  inversion S as [|? ? S1 F1]; subst. apply (sorted_app (fun x y => tok_before (s_tok x) (s_tok y) = true)).
  split; [apply IH; [left|apply N; left]; auto|]. split.
  - apply IHk; auto; intros; [apply IH|apply N]; auto; right; auto.
  - intros x y I J. apply in_flat_map in J as (d & Jd & Jy). rewrite Forall_forall in F1.
    specialize (F1 d Jd). destruct (nested_covers c (N c (or_introl eq_refl)) x (leafs_flat _ _ I)) as [Ox Cx].
    destruct (nested_covers d (N d (or_intror Jd)) y (leafs_flat _ _ Jy)) as [Oy Cy].
    unfold lnode, left_of in F1. tk. lia.
Qed.

Lemma paths_cons i n p : In p (paths i n) -> exists q, p = (i, n_seg n) :: q.
Proof.
  destruct n as [s k]. cbn [paths n_seg]. intros [<-|I]; [eauto|]. apply in_map_iff in I as (q & <- & _). eauto.
Qed.

Lemma stack_lines_paths n : forall prefix i,
  stack_lines prefix i n = flat_map (fun p => prefix ++ flame_line p) (paths i n).
Proof.
  induction n as [s k IH] using node_ind'. intros prefix i. cbn [stack_lines paths flat_map].
  unfold flame_line at 1. cbn [joined last snd]. rewrite <- !app_assoc. do 3 f_equal.
  rewrite <- ?app_assoc. do 4 f_equal.
  match goal with |- ?f 1 k = flat_map ?h (map ?e (?g 1 k)) =>
    cut (forall j, f j k = flat_map h (map e (g j k))); [intros Q; apply Q|] end.
  induction k as [|c k IHk]; intros j; [reflexivity|].
  rewrite map_app, flat_map_app. rewrite (IH c (or_introl eq_refl)). f_equal.
  - rewrite flat_map_concat_map, (flat_map_concat_map _ (map _ _)), map_map, <- !flat_map_concat_map.
    apply flat_map_ext_in. intros p I. destruct (paths_cons _ _ _ I) as [q ->].
    unfold flame_line. cbn [joined last]. rewrite <- !app_assoc. reflexivity.
  - apply IHk. intros d I. apply IH. right; auto.
Qed.

Lemma flame_stack_lines n : flame_stack n = flat_map flame_line (paths 1 n).
Proof. unfold flame_stack. rewrite stack_lines_paths. reflexivity. Qed.

(** One path per node, and the path ends at the node. *)
Lemma paths_nodes n : forall i, map (fun p => snd (last p (0, mkSeg [] (mkTok 0 0)))) (paths i n) = flat n.
Proof.
  induction n as [s k IH] using node_ind'. intros i. cbn [paths flat map last snd]. f_equal.
  match goal with |- map ?h (map ?e (?g 1 k)) = ?r =>
    cut (forall j, map h (map e (g j k)) = r); [intros Q; apply Q|] end.
  induction k as [|c k IHk]; intros j; [reflexivity|].
  rewrite !map_app. cbn [flat_map]. f_equal.
  - rewrite map_map. rewrite <- (IH c (or_introl eq_refl) j). apply map_ext_in. intros p I.
    destruct (paths_cons _ _ _ I) as [q ->]. reflexivity.
  - apply IHk. intros d I. apply IH. right; auto.
Qed.
