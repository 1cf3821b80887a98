(** LuaStyleHead.v - how texts of the style begin. *)
From Verif Require Export LuaStyleRules.
From Coq Require Import Lia ZifyBool.

(** An expression begins like this. *)
Definition xstart (b : bytes) : Prop := b <> [] /\ solid b /\ ~ head_in [x2c; x3d; x3b; x29; x5d; x7d; x5b; x3a] b /\ (forall t, b = x2e :: t -> exists u, t = x2e :: u).
Definition call_head (b : bytes) : Prop := head_in [x28; x7b; x22; x27; x3a] b.
Definition stopish (r : bytes) : Prop := r = [] \/ head_in [x3b] r.
Definition next_ok (s g r : bytes) : Prop := blank g /\ (g = [] -> stopish r \/ s = str ";").

Definition heads (s : sort) (t : bytes) : Prop :=
  match s with
  | Operand _ | Expr _ | Exprs _ => t <> [] /\ forall r, xstart (t ++ r)
  | Suffixes l => (l = None /\ t = []) \/ (l <> None /\ exists h x u, t = h ++ x :: u /\ blank h /\ In x [x28; x7b; x22; x27; x3a; x5b; x2e])
  | Call => exists x u, t = x :: u /\ In x [x28; x7b; x22; x27; x3a]
  | Args => exists x u, t = x :: u /\ In x [x28; x7b; x22; x27]
  | Index => exists x u, t = x :: u /\ In x [x5b; x2e]
  | Table => exists u, t = x7b :: u
  | Body => exists u, t = x28 :: u
  | Names | FuncName | AttNames | Else => first d_let t = true
  | OneVar | Vars => exists w u, t = w ++ u /\ tidy w /\ forall r, word_end r -> word_end (u ++ r)
  | Stat _ _ => t <> [] /\ forall g r, next_ok t g r -> next (t ++ g ++ r)
  | Stats _ f => forall r, next r -> (f = false -> r = []) -> next (t ++ r)
  | Return _ => forall r, next (t ++ r)
  | Block f => forall r, next r -> (f = false -> r = []) -> exists h q, t ++ r = h ++ q /\ blank h /\ next q
  | _ => True
  end.

Lemma xstart_let b : first d_let b = true -> xstart b.
Proof.
  intros F. pose proof (let_quiet b F) as (S & _). apply let_first in F as (x & t & -> & X). apply d_let_is in X. split; [discriminate|]. split; auto. split; [|intros u E; injection E as -> _; discriminate X].
  cbn [head_in]. apply let_not; auto.
Qed.
Lemma xstart_byte x t : In x [x28; x7b; x22; x27; x23; x7e] -> xstart (x :: t).
Proof. intros I. split; [discriminate|]. split; [apply solid_cons; [cbn in *; intuition (subst; discriminate)|intros ->; cbn in I; intuition discriminate]|]. split; [cbn in *; intuition (subst; discriminate)|]. intros u E. injection E as -> _. cbn in I. intuition discriminate. Qed.
Lemma xstart_digit x t : d_dig x = true -> xstart (x :: t).
Proof.
  intros D. assert (N : forall l, forallb (fun y => negb (d_dig y)) l = true -> ~ In x l) by (intros l F I; rewrite forallb_forall in F; specialize (F x I); rewrite D in F; discriminate).
  split; [discriminate|]. split; [apply solid_cons; [apply N; reflexivity|intros ->; discriminate D]|]. split; [apply (N [x2c; x3d; x3b; x29; x5d; x7d; x5b; x3a]); reflexivity|]. intros u E. injection E as -> _. discriminate D.
Qed.
Lemma num_head w : l_numeral w -> exists x t, w = x :: t /\ d_dig x = true.
Proof.
  intros [(i & f & x & -> & S & _)|(m & i & f & x & -> & _)].
  - apply some_first in S as (y & t & -> & Y). cbn [app]. eexists _, _. split; [reflexivity|apply d_dig_is; auto].
  - eexists _, _. split; [reflexivity|reflexivity].
Qed.
Lemma first_app_let t r : first d_let t = true -> first d_let (t ++ r) = true.
Proof. destruct t; [discriminate|auto]. Qed.
Lemma ident_let w r : ident w -> first d_let (w ++ r) = true. Proof. intros [H _]. apply name_first. auto. Qed.
Lemma ident_let0 w : ident w -> first d_let w = true. Proof. intros H. rewrite <- (app_nil_r w). apply ident_let. auto. Qed.
Lemma suffix_word l t g r : heads (Suffixes l) t -> word_end (g ++ r) -> word_end (t ++ g ++ r).
Proof.
  intros [[_ ->]|(_ & h & x & u & -> & H & I)] W; [exact W|]. rewrite <- app_assoc. apply blank_word; auto. intros _. unfold word_end. cbn. cbn in I. intuition (subst; reflexivity).
Qed.
Lemma stopish_word r : stopish r -> word_end r.
Proof. intros [->|H]; [reflexivity|]. destruct r as [|x r]; [reflexivity|]. cbn in H. destruct H as [<-|[]]. reflexivity. Qed.
Lemma next_ok_word s g r : next_ok s g r -> s <> str ";" -> word_end (g ++ r).
Proof. intros [G H] N. apply blank_word; auto. intros E. destruct (H E) as [S|S]; [apply stopish_word; auto|contradiction]. Qed.
Lemma kw_next k t : In k lua_keywords -> k <> lit "and" -> k <> lit "or" -> next (k ++ t).
Proof.
  intros I A O. right; right; right. split; [apply name_first, kw_name; auto|].
  cbn in I. repeat match type of I with _ \/ _ => destruct I as [I|I] end; try contradiction; subst; try (elim (A eq_refl)); try (elim (O eq_refl)); split; intros [u E]; discriminate E.
Qed.
Ltac kw_ := rewrite <- ?app_assoc; apply kw_next; [cbn; tauto|discriminate|discriminate].
Lemma name_semi w t : l_name w -> w ++ t <> str ";".
Proof. intros (x & u & -> & X & _) E. injection E as -> _. apply d_let_is in X. discriminate. Qed.

Theorem style_heads s t : style s t -> heads s t.
Proof.
  induction 1; cbn [heads] in *.
  (* operands *)
  - assert (X : w <> []) by (cbn in H; repeat match type of H with _ \/ _ => destruct H as [H|H] end; subst; try discriminate; contradiction). split; auto. intros r. cbn in H.
    repeat match type of H with _ \/ _ => destruct H as [H|H] end; try contradiction; subst w; [apply xstart_let; reflexivity|apply xstart_let; reflexivity|apply xstart_let; reflexivity|].
    split; [discriminate|]. split; [apply solid_cons; [cbn; intuition discriminate|discriminate]|]. split; [cbn; intuition discriminate|]. intros u E. injection E as <-. eexists. reflexivity.
  - apply num_head in H as (x & t & -> & X). split; [discriminate|]. intros r. apply xstart_digit. auto.
  - split; [discriminate|]. intros r. apply xstart_byte. cbn in *. tauto.
  - destruct IHstyle as [u ->]. split; [discriminate|]. intros r. apply xstart_byte. cbn. auto.
  - assert (X := name_first w [] (proj1 H)). rewrite app_nil_r in X. split; [destruct w; [discriminate X|discriminate]|]. intros r. apply xstart_let. rewrite <- app_assoc. apply name_first. apply H.
  - split; [discriminate|]. intros r. apply xstart_byte. cbn. auto.
  - split; [discriminate|]. intros r. apply xstart_let. reflexivity.
  (* suffixes *)
  - auto.
  - right. split; [destruct l; discriminate|]. destruct IHstyle1 as (y & u & -> & Y). exists g, y, (u ++ t). split; [reflexivity|]. split; auto. cbn in *. tauto.
  - right. split; [destruct l; discriminate|]. destruct IHstyle1 as (y & u & -> & Y). exists g, y, (u ++ t). split; [reflexivity|]. split; auto. cbn in *. tauto.
  - destruct IHstyle as (y & u & -> & Y). exists y, u. split; auto. cbn in *. tauto.
  - eexists _, _. split; [reflexivity|]. cbn. tauto.
  - eexists _, _. split; [reflexivity|]. cbn. tauto.
  - eexists _, _. split; [reflexivity|]. cbn. tauto.
  - destruct IHstyle as [u ->]. eexists _, _. split; [reflexivity|]. cbn. tauto.
  - eexists _, _. split; [reflexivity|]. cbn in *. tauto.
  - eexists _, _. split; [reflexivity|]. cbn. tauto.
  - eexists _, _. split; [reflexivity|]. cbn. tauto.
  (* expressions *)
  - auto.
  - destruct IHstyle as [N X]. split; [cbn in H; intuition (subst; discriminate)|]. intros r. cbn in H. destruct H as [<-|[<-|[<-|[]]]]; [|apply xstart_byte; cbn; tauto|apply xstart_byte; cbn; tauto].
    split; [discriminate|]. split.
    + split; [cbn; intuition discriminate|]. intros [u E]. injection E as E. destruct H0 as [|y g Y G].
      * destruct x as [|y x]; [congruence|]. cbn [app] in E. injection E as -> _. apply (H2 eq_refl eq_refl x). reflexivity.
      * injection E as -> _. cbn in Y. intuition discriminate.
    + split; [cbn; intuition discriminate|]. intros u E. discriminate.
  - split; [discriminate|]. intros r. apply xstart_let. reflexivity.
  - destruct IHstyle1 as [N X]. split; [destruct t; [congruence|discriminate]|]. intros r. rewrite <- app_assoc. apply X.
  - auto.
  - destruct IHstyle1 as [N X]. split; [destruct x; [congruence|discriminate]|]. intros r. rewrite <- app_assoc. apply X.
  (* tables *)
  - eexists. reflexivity.
  - eexists. reflexivity.
  - auto.
  - auto.
  - auto.
  - auto.
  - auto.
  - auto.
  (* functions *)
  - apply ident_let0. auto.
  - apply ident_let. auto.
  - auto.
  - auto.
  - auto.
  - auto.
  - eexists. reflexivity.
  - apply ident_let0. auto.
  - apply ident_let. auto.
  - apply ident_let. auto.
  (* statements *)
  - split; [discriminate|]. intros g r _. right; left. cbn. auto.
  - exists w, t. split; auto. split; auto. intros r R. exact (suffix_word l t [] r IHstyle R).
  - auto.
  - destruct IHstyle1 as (w & u & -> & T & W). exists w, (u ++ g1 ++ str "," ++ g2 ++ l). rewrite <- app_assoc. split; auto. split; auto. intros r R. rewrite <- !app_assoc. apply W. apply blank_word; auto. reflexivity.
  - destruct IHstyle1 as (w & u & -> & T & W). assert (F := name_first w [] (proj1 T)). rewrite app_nil_r in F. split; [destruct w; [discriminate F|discriminate]|].
    intros g r _. rewrite <- !app_assoc. apply tidy_next; auto. apply W. apply blank_word; auto. reflexivity.
  - assert (F := name_first w [] (proj1 H)). rewrite app_nil_r in F. split; [destruct w; [discriminate F|discriminate]|].
    intros g r K. rewrite <- !app_assoc. apply tidy_next; auto. eapply suffix_word; [exact IHstyle|]. eapply next_ok_word; [exact K|apply name_semi; apply H].
  - split; [discriminate|]. intros g r _. right; right; left. eexists. rewrite <- !app_assoc. reflexivity.
  - split; [discriminate|]. intros g r _. kw_.
  - split; [discriminate|]. intros g0 r _. kw_.
  - split; [discriminate|]. intros g0 r _. kw_.
  - split; [discriminate|]. intros g0 r _. kw_.
  - split; [discriminate|]. intros g0 r _. kw_.
  - split; [discriminate|]. intros g0 r _. kw_.
  - reflexivity.
  - reflexivity.
  - reflexivity.
  - split; [discriminate|]. intros g0 r _. kw_.
  - split; [discriminate|]. intros g0 r _. kw_.
  - split; [discriminate|]. intros g0 r _. kw_.
  - split; [discriminate|]. intros g0 r _. kw_.
  - split; [discriminate|]. intros g0 r _. kw_.
  - auto.
  - auto.
  - apply name_first. apply H.
  - apply name_first. apply H.
  - split; [discriminate|]. intros g0 r _. kw_.
  - split; [discriminate|]. intros g0 r _. kw_.
  (* blocks *)
  - intros r R _. exact R.
  - intros r R F. rewrite <- !app_assoc. apply IHstyle1. split; auto. intros Eg. destruct H3 as [X|[X|[[u ->]|[-> X] ] ] ]; [contradiction|auto| |].
    + left. right. cbn. auto.
    + left. left. cbn. auto.
  - intros r. kw_.
  - intros r. kw_.
  - intros r. kw_.
  - intros r. kw_.
  - intros r R F. exists g, (t ++ r). rewrite <- app_assoc. auto.
  - intros r0 R F. exists g, (t ++ r ++ r0). rewrite <- !app_assoc. split; auto. split; auto. apply IHstyle1; [apply IHstyle2|discriminate].
Qed.
