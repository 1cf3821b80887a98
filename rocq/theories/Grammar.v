(** Grammar.v - grammar.go and the parts of tracker.go/monitor.go that rewrite
    the rules of a grammar. *)
From Verif Require Export Reader.

(** What reflection sees of a field of a grammar struct: its Go name, whether its
    type is Rule, whether it is exported, the value of the tag key "name", and the
    Rule stored in it (irrelevant if it is not a Rule). *)
Record field := mkField {
  f_name : bytes; f_isrule : bool; f_exported : bool; f_tag : bytes; f_rule : rule }.
(** A Grammar is a pointer to a struct (reflect panics otherwise; not modelled). *)
Definition gstruct := list field.

(** grammar.go:148-152 (RuleName) *)
Definition rule_name_reader {L : GoLib} : reader :=
  RRuleName (mk_seq
    [AReader (between_any (lit "a-zA-Z"));
     AReader (mk_zom (AReader (mk_any
       [AReader (between_any (lit "a-zA-Z0-9")); AReader (RAnyRune (lit "+-._"))])))]).
(** grammar.go:143-145 (CheckRuleName): a fresh scanner; [n] is fuel.  The check
    never runs out of fuel for n > length name + 10 (theorem in GrammarFacts). *)
Definition check_rule_name_f {L : GoLib} (n : nat) (name : bytes) : res (option err) :=
  match use (read n [] rule_name_reader) (init_st name) with
  | Ok (e, _) => Ok e
  | Panic => Panic
  | Fuel => Fuel
  end.
Definition check_rule_name {L : GoLib} (name : bytes) : res (option err) :=
  check_rule_name_f (length name + 10) name.

Definition set_name (nm : bytes) (f : field) : field :=
  mkField (f_name f) (f_isrule f) (f_exported f) (f_tag f) (mkRule nm (r_reader (f_rule f))).

(** grammar.go:30-50 (SetRuleNames): the struct after the call and the error.
    reflect.Value.Set on a field reached through an unexported field panics. *)
Fixpoint set_rule_names {L : GoLib} (g : gstruct) : res (gstruct * option err) :=
  match g with
  | [] => Ok ([], None)
  | f :: t =>
    let cont f' :=
      match set_rule_names t with
      | Ok (t', e) => Ok (f' :: t', e)
      | Panic => Panic
      | Fuel => Fuel
      end in
    if negb (f_isrule f) then cont f
    else if bytes_eqb (f_tag f) [] then cont f
    else match check_rule_name (f_tag f) with
         | Ok (Some e) =>
           Ok (g, Some (EOther (lit "invalid name for " ++ f_name f ++ lit ": " ++ err_text e)))
         | Ok None => if f_exported f then cont (set_name (f_tag f) f) else Panic
         | Panic => Panic
         | Fuel => Fuel
         end
  end.
(** grammar.go:61-74 (CollectRules): Interface() panics on unexported fields.  The
    collected pointers are represented by the rules they point to. *)
Fixpoint collect_rules (g : gstruct) : res (list rule) :=
  match g with
  | [] => Ok []
  | f :: t =>
    if negb (f_exported f) then Panic
    else match collect_rules t with
         | Ok rs => Ok (if f_isrule f then f_rule f :: rs else rs)
         | Panic => Panic
         | Fuel => Fuel
         end
  end.
(** grammar.go:77-87 (CheckRules), on the result of g.Grammar() *)
Fixpoint check_rules {L : GoLib} (rs : list rule) : res (option err) :=
  match rs with
  | [] => Ok None
  | r :: t =>
    match check_rule_name (r_name r) with
    | Ok (Some e) => Ok (Some e)
    | Ok None =>
      match r_reader r with
      | None => Ok (Some (EOther (lit "the Reader of " ++ r_name r ++ lit " is a nil value")))
      | Some _ => check_rules t
      end
    | Panic => Panic
    | Fuel => Fuel
    end
  end.
(** grammar.go:53-58, 90-95 (MustSetRuleNames, MustCheckRules) *)
Definition must_set_rule_names {L : GoLib} (g : gstruct) : res gstruct :=
  match set_rule_names g with
  | Ok (g', None) => Ok g'
  | Ok (_, Some _) => Panic
  | Panic => Panic
  | Fuel => Fuel
  end.
Definition must_check_rules {L : GoLib} (rs : list rule) : res unit :=
  match check_rules rs with
  | Ok None => Ok tt
  | Ok (Some _) => Panic
  | Panic => Panic
  | Fuel => Fuel
  end.

(** grammar.go:103-114 (Rule.Map, Rule.Monitor, Rule.Pick).  Wrapping a nil Reader
    gives a reader that panics when used; [RRule] of an index without reader does. *)
Definition nil_reader (e : env) : reader := RRule (length e).
Definition rule_sub (e : env) (r : rule) : reader :=
  match r_reader r with Some x => x | None => nil_reader e end.
Definition rule_map (e : env) (id : nat) (r : rule) : rule :=
  mkRule (r_name r) (Some (RMap id (rule_sub e r))).
Definition rule_monitor (e : env) (lg : nat) (r : rule) : rule :=
  mkRule (r_name r) (Some (RMonitor (r_name r) lg (rule_sub e r))).
Definition rule_pick (e : env) (b : nat) (r : rule) : rule :=
  mkRule (r_name r) (Some (RPick (r_name r) b (rule_sub e r))).
(** tracker.go:64-68 (PickWith), monitor.go:49-53 (Log.Monitor) on the rules with the given field positions, one
    after the other. *)
Definition pick_rules (b : nat) (ids : list nat) (e : env) : env :=
  fold_left (fun e i => put rule0 e i (rule_pick e b (get_rule e i))) ids e.
Definition monitor_rules (lg : nat) (ids : list nat) (e : env) : env :=
  fold_left (fun e i => put rule0 e i (rule_monitor e lg (get_rule e i))) ids e.
(** The same on all rules (NewBasketFor, MonitorGrammar). *)
Definition pick_with (b : nat) (e : env) : env := pick_rules b (seq 0 (length e)) e.
Definition monitor_all (lg : nat) (e : env) : env := monitor_rules lg (seq 0 (length e)) e.
(** tracker.go:14-26 (NewBasket, NewBasketFor): basket [b] is fresh and coupled. *)
Definition new_basket (b : nat) (s : st) : st :=
  mkSt (mkSc (full (sc s)) (pos (sc s)) (Some b)) (put_basket b [] (hp s)).
(** grammar.go:124-126 (Rule.Rule), grammar.go:11-17 (GrammarLines) *)
Definition rule_line {L : GoLib} (e : env) (r : rule) : res bytes :=
  match r_reader r with
  | None => Panic
  | Some x => Ok (r_name r ++ lit ": " ++ what e x)
  end.
Fixpoint grammar_lines {L : GoLib} (e : env) (rs : list rule) : res (list bytes) :=
  match rs with
  | [] => Ok []
  | r :: t =>
    match rule_line e r, grammar_lines e t with
    | Ok l, Ok ls => Ok (l :: ls)
    | _, _ => Panic
    end
  end.

(** monitor.go:17-19 (LogEntry.String); Level >= 0 in all uses (Repeat panics
    for negative counts). *)
Definition entry_string (e : entry) : bytes :=
  itoa (e_level e) ++ concat (repeat (lit ".") (Z.to_nat (e_level e))) ++ lit "@ "
  ++ itoa (e_enter e) ++ lit " " ++ e_info e.

(** monitor.go:55-59, 61-65 (Print, PrintWithPreview): the lines printed. *)
Definition log_lines (l : log) : list bytes := map entry_string (log_entries l).
Definition preview_lines {L : GoLib} (str : bytes) (n : Z) (l : log) : list bytes :=
  map (fun e => entry_string e ++ lit " > " ++ quote_str (sub_string_from str (e_enter e) n)) (log_entries l).

(** Fields of the grammar structs in /repo/grammar: all of type Rule, exported. *)
Definition rule_field (name tag : string) : field :=
  mkField (lit name) true true (lit tag) rule0.
(** A grammar constructor: SetRuleNames on the zero struct, then the Readers are
    assigned; [rds] is in field order. *)
Fixpoint assign (g : gstruct) (rds : list reader) : env :=
  match g, rds with
  | f :: g', r :: rds' => mkRule (r_name (f_rule f)) (Some r) :: assign g' rds'
  | _, _ => []
  end.
Definition build_grammar {L : GoLib} (fields : gstruct) (rds : list reader) : env :=
  match set_rule_names fields with
  | Ok (g, _) => assign g rds
  | _ => []
  end.
