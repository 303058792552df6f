(** src/rt1_model/helpers.py:10-92: compiling expressions to numerical functions.
    Models sympy.lambdify and symengine.Lambdify as used there. *)
From Verif Require Export FnModel.
Open Scope nat_scope.

Inductive backend : Type := Sympy | Symengine.

Record compiled : Type := mk_comp { c_be : backend; c_vars : list string; c_exprs : list expr }.

Fixpoint no_dup_b (l : list string) : bool :=
  match l with [] => true | x :: l' => negb (mem x l') && no_dup_b l' end.

Definition all_syms (es : list expr) : list string := flat_map syms es.
Definition subset_b (l m : list string) : bool := forallb (fun x => mem x m) l.

(** helpers.py:50-92 _lambdify.  [seng]: symengine is importable (line 52: ImportError otherwise).
    A symbol that is not an argument is rejected by symengine at compile time; sympy generates a
    function that fails with NameError when called.  Duplicate argument names (a parameter called
    like an angle) are a SyntaxError in sympy's generated code; for symengine not modelled. *)
Definition lambdify (be : backend) (seng : bool) (vars : list string) (es : list expr) : res compiled :=
  match be with
  | Symengine =>
      if negb seng then Err ImportError
      else if negb (no_dup_b vars) then Err Unmodelled
      else if subset_b (all_syms es) vars then Ok (mk_comp be vars es) else Err RuntimeError
  | Sympy => if no_dup_b vars then Ok (mk_comp be vars es) else Err SyntaxError
  end.

(** environment given by argument names and values, at one index *)
Fixpoint env_of (vars : list string) (vals : list (nd xr)) (idx : list nat) (s : string) : xr :=
  match vars, vals with
  | v :: vars', a :: vals' => if String.eqb s v then bget a idx else env_of vars' vals' idx s
  | _, _ => NaN
  end.

Definition shape_of_sym (vars : list string) (vals : list (nd xr)) (s : string) : list nat :=
  match find (fun va => String.eqb s (fst va)) (combine vars vals) with
  | Some (_, a) => shp a
  | None => []
  end.

(** result of one lambdified expression: numpy ufuncs broadcast the operands that occur *)
Definition eval_sympy (vars : list string) (vals : list (nd xr)) (e : expr) : res (nd xr) :=
  match bc_shapes (map (shape_of_sym vars vals) (syms e)) with
  | Some s => Ok (mk_nd s (fun i => evalX (env_of vars vals i) e))
  | None => Err ValueError
  end.

(** Binding of call arguments for sympy's generated Python function:
    positional first, the rest by keyword; TypeError on any mismatch. *)
Definition bind_sympy (vars : list string) (pos : list (nd xr)) (kw : dict (nd xr)) : res (list (nd xr)) :=
  if length vars <? length pos then Err TypeError
  else
    let rest := skipn (length pos) vars in
    if negb (forallb (fun k => mem k rest) (dkeys kw)) then Err TypeError
    else
      let* vs := rmap (fun v => match dget kw v with Some a => Ok a | None => Err TypeError end) rest in
      Ok (pos ++ vs).

(** helpers.py:69-76 lambda_func of the symengine branch: keyword values looked up by name
    (KeyError if absent, superfluous keywords ignored), all arguments broadcast against each other,
    and symengine rejects a wrong number of values. *)
Definition bind_symengine (vars : list string) (pos : list (nd xr)) (kw : dict (nd xr)) : res (list (nd xr)) :=
  let* vs := rmap (fun v => match dget kw v with Some a => Ok a | None => Err KeyError end)
                  (skipn (length pos) vars) in
  let* args := broadcast_arrays (pos ++ vs) in
  if length args =? length vars then Ok args else Err ValueError.

Definition eval_symengine (vars : list string) (vals : list (nd xr)) (e : expr) : nd xr :=
  mk_nd (match vals with [] => [] | a :: _ => shp a end) (fun i => evalX (env_of vars vals i) e).

(** Calling the compiled function. (symengine functions without arguments are not modelled.) *)
Definition call (c : compiled) (pos : list (nd xr)) (kw : dict (nd xr)) : res (list (nd xr)) :=
  match c_be c with
  | Sympy =>
      let* vals := bind_sympy (c_vars c) pos kw in
      if subset_b (all_syms (c_exprs c)) (c_vars c)
      then rmap (eval_sympy (c_vars c) vals) (c_exprs c)
      else Err NameError
  | Symengine =>
      match c_vars c with
      | [] => Err Unmodelled
      | _ =>
        let* vals := bind_symengine (c_vars c) pos kw in
        Ok (map (eval_symengine (c_vars c) vals) (c_exprs c))
      end
  end.

(** a function compiled from a single expression returns that expression's value *)
Definition call1 (c : compiled) (pos : list (nd xr)) (kw : dict (nd xr)) : res (nd xr) :=
  let* l := call c pos kw in
  match l with [a] => Ok a | _ => Err Unmodelled end.
