(** Model of the logging configuration (src/rt1_model/__init__.py:5-9, 69-175) over the parts of Python's [logging] it uses.
    The characters of strings are ASCII; [logging.disable] is not used; records are those of the logger "rt1_model",
    the only one of the package (all modules import it from __init__.py); Python >= 3.8 (format strings are validated). *)
From Coq Require Import ZArith Ascii String List Bool Lia.
From Verif Require Import Base.
Import ListNotations.
Open Scope string_scope. Open Scope list_scope.

(** ** Python's logging *)
(** logging._nameToLevel *)
Definition level_names : list (string * Z) :=
  [("CRITICAL", 50%Z); ("FATAL", 50%Z); ("ERROR", 40%Z); ("WARN", 30%Z); ("WARNING", 30%Z); ("INFO", 20%Z); ("DEBUG", 10%Z); ("NOTSET", 0%Z)].
(** a level argument: an int, a str or anything else *)
Inductive level_arg : Type := LInt (z : Z) | LStr (s : string) | LOther.
(** logging._checkLevel *)
Definition check_level (l : level_arg) : res Z :=
  match l with
  | LInt z => Ok z
  | LStr s => match dget level_names s with Some z => Ok z | None => Err ValueError end
  | LOther => Err TypeError
  end.

(** logging.PercentStyle.validation_pattern:
    r'%\(\w+\)[#0+ -]*(\*|\d+)?(\.(\*|\d+))?[diouxefgcrsa%]' with re.I *)
Definition between (a b c : ascii) : bool := Nat.leb (nat_of_ascii a) (nat_of_ascii c) && Nat.leb (nat_of_ascii c) (nat_of_ascii b).
Definition is_digit (c : ascii) : bool := between "0" "9" c.
Definition is_word (c : ascii) : bool := is_digit c || between "a" "z" c || between "A" "Z" c || Ascii.eqb c "_".
Definition one_of (s : string) (c : ascii) : bool := existsb (Ascii.eqb c) (list_ascii_of_string s).
Fixpoint skip (p : ascii -> bool) (s : list ascii) : list ascii :=
  match s with c :: s' => if p c then skip p s' else s | [] => [] end.
(** (\*|\d+)? *)
Definition width (s : list ascii) : list ascii :=
  match s with "*"%char :: s' => s' | _ => skip is_digit s end.
(** (\.(\*|\d+))? *)
Definition precision (s : list ascii) : list ascii :=
  match s with
  | "."%char :: "*"%char :: s' => s'
  | "."%char :: c :: s' => if is_digit c then skip is_digit s' else s
  | _ => s
  end.
Definition field_at (s : list ascii) : bool :=
  match s with
  | "%"%char :: "("%char :: c :: s1 =>
      if is_word c then
        match skip is_word s1 with
        | ")"%char :: s2 => match precision (width (skip (one_of "#0+ -") s2)) with
                            | k :: _ => one_of "diouxefgcrsaDIOUXEFGCRSA%" k
                            | [] => false
                            end
        | _ => false
        end
      else false
  | _ => false
  end.
Fixpoint has_field (s : list ascii) : bool := match s with [] => false | _ :: s' => field_at s || has_field s' end.
(** logging.Formatter(fmt, datefmt): the empty string stands for the default "%(message)s" *)
Definition formatter : Type := (string * option string)%type.
Definition mk_formatter (fmt : string) (datefmt : option string) : res formatter :=
  let f := match fmt with EmptyString => "%(message)s" | _ => fmt end in
  if has_field (list_ascii_of_string f) then Ok (f, datefmt) else Err ValueError.

(** A handler: its level, its formatter and whether the package made it (the others belong to the user). *)
Record handler : Type := mk_handler { h_level : Z; h_fmt : option formatter; h_ours : bool }.
(** the logger "rt1_model" (level and attached handlers), all handlers, the level of the root logger, and the value
    cached for _ensure_handler *)
Record logst : Type := mk_logst { lg_level : Z; lg_attached : list nat; lg_handlers : list handler; lg_root : Z; lg_cached : option nat }.

(** __init__.py:8-9: the logger is set to WARNING when the package is imported; the root logger starts with WARNING *)
Definition log_init : logst := mk_logst 30 [] [] 30 None.

Fixpoint list_set {A} (l : list A) (i : nat) (x : A) : list A :=
  match l, i with [], _ => [] | _ :: l', O => x :: l' | y :: l', S i' => y :: list_set l' i' x end.
Definition with_level (s : logst) (z : Z) : logst := mk_logst z (lg_attached s) (lg_handlers s) (lg_root s) (lg_cached s).
Definition with_handler (s : logst) (i : nat) (f : handler -> handler) : logst :=
  mk_logst (lg_level s) (lg_attached s) (match nth_error (lg_handlers s) i with Some h => list_set (lg_handlers s) i (f h) | None => lg_handlers s end) (lg_root s) (lg_cached s).

(** ** The package *)
(** logging.BASIC_FORMAT *)
Definition basic_format : string := "%(levelname)s:%(name)s:%(message)s".
(** __init__.py:69-83 _ensure_handler, cached by lru_cache *)
Definition ensure_handler (s : logst) : logst * nat :=
  match lg_cached s with
  | Some i => (s, i)
  | None => let i := length (lg_handlers s) in
            (mk_logst (lg_level s) (lg_attached s ++ [i]) (lg_handlers s ++ [mk_handler 0 (Some (basic_format, None)) true]) (lg_root s) (Some i), i)
  end.
(** __init__.py:86-107 _set_logfmt *)
Definition set_logfmt (fmt datefmt : option string) (s : logst) : logst * res unit :=
  let fmt := match fmt with None => "%(levelname)s: %(asctime)s: %(message)s" | Some f => f end in
  let '(s1, i) := ensure_handler s in
  match mk_formatter fmt datefmt with
  | Ok f => (with_handler s1 i (fun h => mk_handler (h_level h) (Some f) (h_ours h)), Ok tt)
  | Err e => (s1, Err e)
  end.
(** __init__.py:110-121 _log_format_presets *)
Definition presets : list (string * (string * option string)) :=
  [("minimal", ("%(asctime)s.%(msecs)03d: %(message)s", Some "%H:%M:%S"));
   ("timed", ("%(asctime)s.%(msecs)03d %(levelname)s: %(message)s", Some "%H:%M:%S"));
   ("debug", ("%(asctime)s.%(msecs)03d %(levelname)s: %(name)s: %(message)s", Some "%H:%M:%S"));
   ("plain", ("%(message)s", None))].
(** str.upper *)
Definition upper_char (c : ascii) : ascii := if between "a" "z" c then ascii_of_nat (nat_of_ascii c - 32) else c.
Definition upper (s : string) : string := string_of_list_ascii (map upper_char (list_ascii_of_string s)).
(** __init__.py:124-175 set_loglevel; [fmt] is a str or None; the default of fmt is "timed" *)
Definition set_loglevel (level : level_arg) (fmt : option string) (s : logst) : logst * res unit :=
  let level := match level with LStr x => LStr (upper x) | l => l end in
  match check_level level with
  | Err e => (s, Err e)
  | Ok z =>
      let s1 := with_level s z in
      let '(s2, i) := ensure_handler s1 in
      let s3 := with_handler s2 i (fun h => mk_handler z (h_fmt h) (h_ours h)) in
      match fmt with
      | None => (s3, Ok tt)
      | Some f => match dget presets f with Some (g, d) => set_logfmt (Some g) d s3 | None => set_logfmt (Some f) None s3 end
      end
  end.
Definition default_fmt : option string := Some "timed".

(** ** Histories: calls of set_loglevel, and what a user does with the logger *)
Inductive log_op : Type :=
| LSet (level : level_arg) (fmt : option string)
| LAdd (h_lev : Z) (h_format : option formatter)   (** the user attaches a handler of their own *)
| LRemove (i : nat)                                (** removeHandler *)
| LLevel (z : Z)                                   (** logging.getLogger("rt1_model").setLevel *)
| LRoot (z : Z)                                    (** logging.getLogger().setLevel *).
Definition log_step (s : logst) (p : log_op) : logst * res unit :=
  match p with
  | LSet level fmt => set_loglevel level fmt s
  | LAdd z f => (mk_logst (lg_level s) (lg_attached s ++ [length (lg_handlers s)]) (lg_handlers s ++ [mk_handler z f false]) (lg_root s) (lg_cached s), Ok tt)
  | LRemove i => (mk_logst (lg_level s) (filter (fun j => negb (Nat.eqb j i)) (lg_attached s)) (lg_handlers s) (lg_root s) (lg_cached s), Ok tt)
  | LLevel z => (with_level s z, Ok tt)
  | LRoot z => (mk_logst (lg_level s) (lg_attached s) (lg_handlers s) z (lg_cached s), Ok tt)
  end.
Definition log_run (s : logst) (ps : list log_op) : logst := fold_left (fun s p => fst (log_step s p)) ps s.

(** logging.Logger.getEffectiveLevel and Handler.handle: the attached handler [i] writes a record of severity [n] *)
Definition effective (s : logst) : Z := if Z.eqb (lg_level s) 0 then lg_root s else lg_level s.
Definition writes (s : logst) (i : nat) (n : Z) : Prop :=
  In i (lg_attached s) /\ (0 < n)%Z /\ (effective s <= n)%Z /\ exists h, nth_error (lg_handlers s) i = Some h /\ (h_level h <= n)%Z.
