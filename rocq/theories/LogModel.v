(** LogModel.v - monitor.go:26-70, with Go's slice semantics: append writes into
    the current backing array while there is capacity, otherwise it copies to a new
    array; &l.Entries[i] is a pointer into the array that was current then. *)
From Verif Require Export State.

(** A *LogEntry: array and index. *)
Definition eptr := (nat * nat)%type.

(** monitor.go:32-41 (Enter) *)
Definition log_enter {L : GoLib} (info : bytes) (pos : Z) (l : log) : eptr * log :=
  let level := l_level l + 1 in
  let e := mkEntry pos info level 0 None in
  let arr := log_entries l in
  if Nat.ltb (l_len l) (l_cap l) then
    ((l_cur l, l_len l),
     mkLog (put [] (l_arrs l) (l_cur l) (arr ++ [e])) (l_cur l) (S (l_len l)) (l_cap l) level)
  else
    let c := length (l_arrs l) in
    ((c, l_len l),
     mkLog (l_arrs l ++ [arr ++ [e]]) c (S (l_len l))
           (Nat.max (S (l_len l)) (lib_grow (l_cap l))) level).

Fixpoint upd {A} (l : list A) (i : nat) (f : A -> A) : list A :=
  match l, i with
  | [], _ => []
  | h :: t, O => f h :: t
  | h :: t, S i' => h :: upd t i' f
  end.

(** monitor.go:43-47 (Exit): writes through the pointer. *)
Definition log_exit (p : eptr) (pos : Z) (e : option err) (l : log) : log :=
  mkLog (upd (l_arrs l) (fst p)
           (fun arr => upd arr (snd p)
              (fun x => mkEntry (e_enter x) (e_info x) (e_level x) pos e)))
        (l_cur l) (l_len l) (l_cap l) (l_level l - 1).

(** monitor.go:67-70 (Reset): a fresh empty slice. *)
Definition log_reset (l : log) : log :=
  mkLog (l_arrs l ++ [[]]) (length (l_arrs l)) 0 0 0.

Definition get_log (i : nat) (h : heap) : log := get log0 (h_logs h) i.
Definition put_log (i : nat) (l : log) (h : heap) : heap := set_logs (put log0 (h_logs h) i l) h.
