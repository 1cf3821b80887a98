(** LuaLens.v - how many tokens of a given kind a phrase of the Lua grammar can consist of: an analysis that shows some
    texts to be no phrases. *)
From Verif Require Import SpecLuaSyntax.
From Coq Require Import Lia.

Section Lens.
Context (odd : lua_token -> bool) (J : nonterm -> list nat).

Definition sums (a b : list nat) : list nat := flat_map (fun i => map (fun j => (i + j)%nat) b) a.
(** The possible lengths of token lists that [x] derives and that consist of [odd] tokens; None for unknown *)
Fixpoint lens (x : ebnf) : option (list nat) :=
  match x with
  | T t => Some (if odd t then [1%nat] else [])
  | N n => Some (J n)
  | Cat l => (fix cat l := match l with
      | [] => Some [0%nat]
      | x :: l => match lens x, cat l with Some [], _ => Some [] | _, Some [] => Some [] | Some a, Some b => Some (sums a b) | _, _ => None end
      end) l
  | Alt l => (fix alt l := match l with
      | [] => Some []
      | x :: l => match lens x, alt l with Some a, Some b => Some (a ++ b) | _, _ => None end
      end) l
  | Star x => match lens x with Some [] => Some [0%nat] | _ => None end
  | Maybe x => match lens x with Some a => Some (0%nat :: a) | None => None end
  end.
Definition lens_in (n : nat) (o : option (list nat)) : Prop := match o with Some a => In n a | None => True end.
Definition nonterms : list nonterm :=
  [chunk; block; stat; attnamelist; attrib; retstat; label; funcname; varlist; var; namelist; explist; exp;
   prefixexp; functioncall; args; functiondef; funcbody; parlist; tableconstructor; fieldlist; field; fieldsep; binop; unop].
Definition lens_ok : bool := forallb (fun n => match lens (manual n) with Some a => forallb (fun i => existsb (Nat.eqb i) (J n)) a | None => false end) nonterms.

Lemma derives_lens : lens_ok = true -> forall x ts, derives x ts -> forallb odd ts = true -> lens_in (length ts) (lens x).
Proof.
  intros Ok x ts D. induction D; intros O.
  - cbn in *. rewrite andb_true_r in O. rewrite O. cbn. auto.
  - specialize (IHD O). unfold lens_ok in Ok. rewrite forallb_forall in Ok. assert (Hn : In n nonterms) by (destruct n; cbn; tauto).
    apply Ok in Hn. destruct (lens (manual n)) as [a|]; [|discriminate]. cbn in *. rewrite forallb_forall in Hn. apply Hn in IHD.
    apply existsb_exists in IHD as (y & Iy & E). apply Nat.eqb_eq in E. subst; auto.
  - cbn. auto.
  - rewrite forallb_app in O. apply andb_true_iff in O as [Ou Ov]. specialize (IHD1 Ou). specialize (IHD2 Ov). rewrite app_length.
    cbn [lens]. cbn [lens] in IHD2. destruct (lens x) as [[|i a]|].
    + destruct IHD1.
    + destruct ((fix cat l := match l with [] => _ | x :: l => _ end) l) as [[|j b]|]; [destruct IHD2| |exact I].
      unfold lens_in in *. unfold sums. apply in_flat_map. exists (length u). split; auto. apply in_map_iff. eauto.
    + destruct ((fix cat l := match l with [] => _ | x :: l => _ end) l) as [[|j b]|]; [destruct IHD2|exact I|exact I].
  - specialize (IHD O). cbn [lens]. induction l as [|y l IH]; [destruct H|]. destruct H as [->|H].
    + destruct (lens x) as [a|]; [|exact I]. destruct ((fix alt l := match l with [] => _ | x :: l => _ end) l) as [b|]; [|exact I]. cbn in *. apply in_app_iff; auto.
    + specialize (IH H). destruct (lens y) as [a|]; [|exact I]. destruct ((fix alt l := match l with [] => _ | x :: l => _ end) l) as [b|]; [|exact I]. cbn in *. apply in_app_iff; auto.
  - cbn. destruct (lens x) as [[|i a]|]; exact I || (left; reflexivity).
  - rewrite forallb_app in O. apply andb_true_iff in O as [Ou Ov]. specialize (IHD1 Ou). specialize (IHD2 Ov). cbn [lens] in *.
    destruct (lens x) as [[|i a]|]; cbn; auto.
  - cbn. destruct (lens x); cbn; auto.
  - specialize (IHD O). cbn. destruct (lens x); cbn in *; auto.
Qed.
End Lens.
