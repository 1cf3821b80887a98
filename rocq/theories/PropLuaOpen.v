(** PropLuaOpen.v - C128: Lua() returns on texts that do not break off inside a quoted string. *)
From Verif Require Import LuaOpen PropJson PropTotal ReaderSync UseFacts ExKit.
From Coq Require Import Lia ZifyBool.
From Verif Require Import ReaderSteps ReaderScan.

(** C128.  [breaks_off b]: some way to cut [b] from the left into bytes that are no quotes, quoted strings, long
    brackets and line comments comes to a quote with nothing but string characters behind it. *)
Theorem C128_lua_returns {L : GoLib} s a b : at_split s a b -> wf_text b -> ~ breaks_off b -> exists x s', uses lua_env lua s x s'.
Proof.
  intros H W K. set (s0 := mkSt (sc s) heap0). assert (H0 : at_split s0 a b) by exact H.
  destruct (lua_walk b W K) as (ok & c' & b' & D). destruct (eats_reads _ _ _ _ _ _ _ _ _ D (stands_split _ _ _ H0)) as (x & s1 & R & _).
  assert (P0 : 0 <= pos (sc s0)) by (destruct H as (_ & P & _); cbn; rewrite P; apply slen_nonneg).
  assert (U : uses lua_env lua s0 x (match x with None => s1 | Some _ => moveto (pos (sc s0)) s1 end)) by (apply uses_reads; auto; exists s1; auto).
  assert (I0 : in_text s0) by (destruct H as (F & P & Lt); split; [|cbn; rewrite F; exact Lt]; cbn; rewrite P, F, slen_app; pose proof (slen_nonneg a); pose proof (slen_nonneg b); lia).
  destruct (C64_clean_grammars_independent lua_env lua s0 s x _ lua_clean eq_refl I0 eq_refl eq_refl U) as (s2 & U2 & _). eauto.
Qed.
Print Assumptions C128_lua_returns.

(** It holds of every text without quotes, and of every text that ends in a control character (C69). *)
Theorem C128_no_quotes {L : GoLib} s a b : at_split s a b -> wf_text b -> ~ In x22 b -> ~ In x27 b -> exists x s', uses lua_env lua s x s'.
Proof.
  intros H W A B. apply (C128_lua_returns s a b H W). intros (b' & P & q & u & -> & Q & _). apply passes_suffix in P as [d ->].
  destruct Q as [->| ->]; [apply A|apply B]; apply in_or_app; right; left; reflexivity.
Qed.
Print Assumptions C128_no_quotes.
Theorem C128_control_end b : (forall p y, b = p ++ [y] -> bz y < 0x20) -> ~ breaks_off b.
Proof.
  intros T (b' & P & q & u & -> & Q & J). apply passes_suffix in P as [d ->].
  assert (X : exists p y, q :: u = p ++ [y] /\ 0x20 <= bz y).
  { destruct (exists_last (l := q :: u)) as (p & y & E); [discriminate|]. exists p, y. split; auto. pose proof (chars_printable q u J) as F. assert (I : In y (q :: u)) by (rewrite E; apply in_or_app; right; left; auto).
    destruct I as [<-|I]; [destruct Q as [->| ->]; cbn; lia|]. rewrite Forall_forall in F. exact (F y I). }
  destruct X as (p & y & E & G). specialize (T (d ++ p) y). rewrite E, app_assoc in T. specialize (T eq_refl). lia.
Qed.
Print Assumptions C128_control_end.
(** Bytes and whole strings, without the beginnings of comments and long brackets: such a text may end in anything. *)
Theorem C128_closed {L : GoLib} s a b : at_split s a b -> wf_text b -> closed b -> ~ occurs b (lit "--") -> ~ occurs b (lit "[[") -> ~ occurs b (lit "[=") ->
  exists x s', uses lua_env lua s x s'.
Proof. intros H W C N1 N2 N3. apply (C128_lua_returns s a b H W). apply closed_stays; auto. Qed.
Print Assumptions C128_closed.
Definition open_case : bytes := lit "x = ""it's"" .. y[1] - 'a\'' .. z".
Example C128_here {L : GoLib} : wf_text open_case /\ closed open_case /\ exists x s', uses lua_env lua (init_st open_case) x s'.
Proof.
  assert (W : wf_text open_case) by (apply valid_wf; vm_compute; reflexivity).
  assert (C : closed open_case).
  { unfold open_case. do 4 (apply c_byte; [intros [Q|Q]; discriminate|]). apply (c_string x22 (lit "it's")); [left; auto|repeat constructor; discriminate || (cbn; lia)|].
    do 11 (apply c_byte; [intros [Q|Q]; discriminate|]). apply (c_string x27 (lit "a\'")); [right; auto| |repeat (apply c_byte; [intros [Q|Q]; discriminate|]); apply c_nil].
    apply lc_plain; [repeat split; discriminate || (cbn; lia)|]. apply (lc_escape x27 (lit "\'") []); [|constructor]. apply le_char. cbn. tauto. }
  split; auto. split; auto. apply (C128_closed _ [] open_case); auto; [repeat split|..]; intros O; apply occurs_has in O; discriminate O.
Qed.
(** The case of C69 breaks off, and so does a line comment with an apostrophe at the end of the text. *)
Example C128_print_here : breaks_off (lit "print""a").
Proof.
  exists (lit """a"). split; [do 5 (apply p_byte; [intros [Q|Q]; discriminate|]); apply p_here|]. exists x22, (lit "a"). split; auto. split; [left; auto|]. repeat constructor; discriminate || (cbn; lia).
Qed.
