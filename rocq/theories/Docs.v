(** helpers.append_numpy_docstring: combining docstrings.
    External: numpydoc's parser and printer, left abstract (any two functions). *)
From Verif Require Export Base.
From Coq Require Import Lia.
Open Scope string_scope. Open Scope nat_scope. Open Scope list_scope.

(** numpydoc's Parameter(name, type, desc) *)
Record dparam : Type := mk_dparam { d_name : string; d_type : string; d_desc : list string }.

(** "References" and "Examples": numpydoc holds the empty string when the section is absent, and the list of
    its lines when it is present *)
Inductive dtext : Type := TStr (s : string) | TLines (l : list string).
Definition d_nonempty (t : dtext) : bool :=
  match t with TStr "" => false | TStr _ => true | TLines [] => false | TLines _ => true end.

(** the sections of a parsed docstring; [d_lists]: all remaining sections, by name *)
Record doc : Type := mk_doc {
  d_params : list dparam; d_summary : list string; d_extended : list string;
  d_refs : dtext; d_examples : dtext; d_lists : string -> list string }.

Definition newline : string := String (Ascii.ascii_of_nat 10) "".

(** helpers.py:128-131: [if f_doc[key]: comb[key] += ["\n", *f_doc[key]]] *)
Definition add_summary (own inh : list string) : list string :=
  match inh with [] => own | _ => own ++ newline :: inh end.

Fixpoint chars (s : string) : list string :=
  match s with "" => [] | String c s' => String c "" :: chars s' end.
(** helpers.py:133-136: [if f_doc[key]: comb[key] += "\n" + f_doc[key]]; a str and a list cannot be added;
    a list extended by a str gets its characters *)
Definition add_text (own inh : dtext) : res dtext :=
  if d_nonempty inh then
    match inh with
    | TLines _ => Err TypeError
    | TStr s => match own with
                | TStr t => Ok (TStr (t ++ newline ++ s))
                | TLines l => Ok (TLines (l ++ chars (newline ++ s)))
                end
    end
  else Ok own.

(** helpers.py:138-144: [old_p = any(i for i in comb["Parameters"] if i.name == p.name)] *)
Definition described (ps : list dparam) (n : string) : bool := existsb (fun i => String.eqb (d_name i) n) ps.
Fixpoint add_params (own inh : list dparam) : list dparam :=
  match inh with
  | [] => own
  | p :: inh' => add_params (if described own (d_name p) then own else own ++ [p]) inh'
  end.

(** helpers.py:146-159 *)
Definition list_sections : list string :=
  ["Returns"; "Yields"; "Receives"; "Raises"; "Warns"; "Other Parameters"; "Attributes"; "Methods"; "See Also"; "Notes"; "Warnings"].
Definition add_lists (own inh : string -> list string) : string -> list string :=
  fun k => if mem k list_sections then own k ++ inh k else own k.

(** helpers.py:127-159, the body of the loop for one inherited docstring *)
Definition merge (comb f_doc : doc) : res doc :=
  let* refs := add_text (d_refs comb) (d_refs f_doc) in
  let* exs := add_text (d_examples comb) (d_examples f_doc) in
  Ok (mk_doc (add_params (d_params comb) (d_params f_doc)) (add_summary (d_summary comb) (d_summary f_doc))
        (add_summary (d_extended comb) (d_extended f_doc)) refs exs (add_lists (d_lists comb) (d_lists f_doc))).

Section Numpydoc.
  (** NumpyDocString(text) and str(doc) *)
  Context (parse : string -> res doc) (render : doc -> res string).

  (** helpers.py:122-126: docstrings that are None or empty are skipped *)
  Fixpoint merge_all (comb : doc) (funcs : list (option string)) : res doc :=
    match funcs with
    | [] => Ok comb
    | None :: fs => merge_all comb fs
    | Some t :: fs =>
        if String.eqb t "" then merge_all comb fs
        else let* f_doc := parse t in let* c := merge comb f_doc in merge_all c fs
    end.

  (** helpers.py:115-168: the docstring afterwards *)
  Definition combined (own : option string) (funcs : list (option string)) : res string :=
    let* comb := parse (match own with None => "" | Some t => t end) in
    let* c := merge_all comb funcs in render c.
  Definition append_numpy_docstring (own : option string) (funcs : list (option string)) : option string :=
    match combined own funcs with Ok s => Some s | Err _ => own end.
End Numpydoc.
