(** Base.v - basic vocabulary of the model: Go byte strings, results, updates of
    finite stores.  No part of /repo is modelled here. *)
From Coq Require Export Strings.String.
From Coq Require Export Strings.Byte.
From Coq Require Export ZArith Bool.
From Coq Require Export List.
From Coq Require Import Lia DecimalString.
Export ListNotations.
Open Scope Z_scope.
Open Scope list_scope.

(** A Go [string] is an immutable sequence of arbitrary bytes. *)
Definition bytes := list byte.

(** Source literals: [lit "abc"] is the UTF-8 byte sequence of the literal. *)
Definition lit (s : String.string) : bytes := String.list_byte_of_string s.
Arguments lit s%string.

(** Numerical value of a byte and back (total; used only for 0..255). *)
Definition bz (b : byte) : Z := Z.of_N (Byte.to_N b).
Definition zb (z : Z) : byte :=
  match Byte.of_N (Z.to_N z) with Some b => b | None => x00 end.

Definition slen {A} (l : list A) : Z := Z.of_nat (length l).

Definition byteb_eq (a b : byte) : bool := Byte.eqb a b.

Fixpoint bytes_eqb (a b : bytes) : bool :=
  match a, b with
  | [], [] => true
  | x :: a', y :: b' => Byte.eqb x y && bytes_eqb a' b'
  | _, _ => false
  end.

(** [s[i:j]] for indices already checked to be in range. *)
Definition slice (s : bytes) (i j : Z) : bytes :=
  firstn (Z.to_nat (j - i)) (skipn (Z.to_nat i) s).

(** fmt's %d *)
Definition itoa (z : Z) : bytes :=
  String.list_byte_of_string (NilZero.string_of_int (Z.to_int z)).

(** Two's complement wrap-around of Go's int64/uint64 arithmetic. *)
Definition wrap64 (z : Z) : Z := (z + 2 ^ 63) mod 2 ^ 64 - 2 ^ 63.
Definition wrapu64 (z : Z) : Z := z mod 2 ^ 64.
Definition max_int : Z := 2 ^ 63 - 1.
Definition min_int : Z := - 2 ^ 63.

(** Outcome of running a piece of Go code: a value, a run-time panic, or the
    model's fuel ran out (the Go code had not returned yet). *)
Inductive res (A : Type) : Type :=
| Ok (a : A)
| Panic
| Fuel.
Arguments Ok {A} a.
Arguments Panic {A}.
Arguments Fuel {A}.

(** Finite stores indexed by object identity: a list with a default value.
    [put] pads with the default, so that [get]/[put] obey the usual laws. *)
Definition get {A} (d : A) (l : list A) (i : nat) : A := nth i l d.
Fixpoint put {A} (d : A) (l : list A) (i : nat) (x : A) : list A :=
  match i, l with
  | O, [] => [x]
  | O, _ :: t => x :: t
  | S i', [] => d :: put d [] i' x
  | S i', h :: t => h :: put d t i' x
  end.
