(** The stateful core of src/rt1_model/_calc.py: RT1 objects, the class-level LRU caches, the module
    global backend, and every public method as a function world -> world * result. *)
From Verif Require Export Kernels.
Open Scope nat_scope.

(** ** Values *)

(** A Python number, or a numpy array (a reference into [h_arrs]: arrays are mutable and shared
    with the caller; lists passed by the caller are arrays nobody else holds). *)
Inductive pyval : Type := PNum (x : xr) | PArr (aid : nat).

(** values of param_dict: the initial [bsf=0] is stored as is (_calc.py:120), everything else
    goes through np.atleast_1d (_calc.py:484), which does not copy. *)
Inductive sval : Type := SRaw (v : pyval) | S1d (v : pyval).

(** what can be assigned to R.tau, R.omega, R.NormBRDF, R.bsf: a string (parsed by sympy),
    a sympy object, a number or an array. *)
Inductive pdef : Type := DStr (e : expr) | DSym (e : expr) | DVal (v : pyval).

Inductive pname : Type := Tau | Omega | NormBRDF | Bsf.
Definition pname_str (p : pname) : string :=
  match p with Tau => "tau" | Omega => "omega" | NormBRDF => "NormBRDF" | Bsf => "bsf" end%string.

Inductive angle : Type := T0 | TEx | P0 | PEx.
Definition angle_eqb (a b : angle) : bool :=
  match a, b with T0, T0 | TEx, TEx | P0, P0 | PEx, PEx => true | _, _ => false end.
Definition angle_of_str (s : string) : option angle :=
  if String.eqb s "t_0" then Some T0 else if String.eqb s "t_ex" then Some TEx
  else if String.eqb s "p_0" then Some P0 else if String.eqb s "p_ex" then Some PEx else None.

(** the attributes of an RT1 instance (_calc.py:87-125, 335-352, 369-396) *)
Record rt1 : Type := mk_rt1 {
  r_V : nat; r_SRF : nat;                    (** ids of the scatter objects *)
  r_intQ : bool; r_sig0 : bool; r_dB : bool;
  r_fn_input : option (list expr); r_fnevals_input : option compiled;
  r_I0 : pyval;
  r_def : pname -> pdef;                     (** _tau, _omega, _NormBRDF, _bsf *)
  r_params : dict sval;                      (** _param_dict *)
  r_fixed : list angle;                      (** _fixed_angles *)
  r_mono : bool;                             (** _monostatic *)
  r_ang : angle -> option pyval;             (** _t_0, _t_ex, _p_0, _p_ex *)
  r_geom : angs;                             (** _geom_ang_symbs *)
  r_fn : option (list expr);                 (** _fn_ *)
  r_fnev : option compiled;                  (** _fnevals_ *)
  r_plots : bool                             (** analyze / analyze3d are usable *)
}.

(** everything except the caches *)
Record heap : Type := mk_heap {
  h_be : backend;                            (** __init__.py: _init_lambda_backend *)
  h_seng : bool;                             (** symengine importable (fixed at import) *)
  h_arrs : list (nd xr);
  h_scats : list scat;
  h_objs : list rt1
}.

(** ** The class-level caches (functools.lru_cache(), maxsize 128, keyed by self and arguments) *)
Inductive cname : Type :=
| CMu0 | CMuEx | CMu0x | CMuExx            (** _calc.py:272-275, 300-303, 799-805, 807-813 *)
| CPSymbs | CPFuncs                        (** _calc.py:743-753, 755-767 *)
| CDVol | CDSrf                            (** _calc.py:1394-1423, 1465-1494 *)
| CLambda.                                 (** _scatter.py:83-105 *)

Definition cname_eqb (a b : cname) : bool :=
  match a, b with
  | CMu0, CMu0 | CMuEx, CMuEx | CMu0x, CMu0x | CMuExx, CMuExx | CPSymbs, CPSymbs
  | CPFuncs, CPFuncs | CDVol, CDVol | CDSrf, CDSrf | CLambda, CLambda => true
  | _, _ => false
  end.

Definition ckey : Type := (nat * list string)%type.
Definition list_string_eqb (a b : list string) : bool := if list_eq_dec string_dec a b then true else false.
Definition ckey_eqb (a b : ckey) : bool := (fst a =? fst b) && list_string_eqb (snd a) (snd b).

Inductive cval : Type := VArr (a : nd xr) | VStrs (l : list string) | VFun (c : option compiled).

Definition lru : Type := list (ckey * cval).   (** most recently used first *)
Definition maxsize : nat := 128.

Fixpoint lru_get (c : lru) (k : ckey) : option cval :=
  match c with
  | [] => None
  | (k', v) :: c' => if ckey_eqb k k' then Some v else lru_get c' k
  end.
Definition lru_del (c : lru) (k : ckey) : lru := filter (fun kv => negb (ckey_eqb k (fst kv))) c.
Definition lru_touch (c : lru) (k : ckey) (v : cval) : lru := (k, v) :: lru_del c k.
Definition lru_put (c : lru) (k : ckey) (v : cval) : lru := firstn maxsize (lru_touch c k v).

(** [w_on = false] is the same program with every @lru_cache() decorator removed. *)
Record world : Type := mk_world { w_heap : heap; w_on : bool; w_caches : cname -> lru }.

Definition set_cache (w : world) (n : cname) (c : lru) : world :=
  mk_world (w_heap w) (w_on w) (fun m => if cname_eqb n m then c else w_caches w m).
Definition set_heap (w : world) (h : heap) : world := mk_world h (w_on w) (w_caches w).

(** ** State + exception monad *)
Definition M (A : Type) : Type := world -> world * res A.
Definition ret {A} (a : A) : M A := fun w => (w, Ok a).
Definition fail {A} (e : exn) : M A := fun w => (w, Err e).
Definition bind {A B} (m : M A) (k : A -> M B) : M B :=
  fun w => let '(w', r) := m w in match r with Ok a => k a w' | Err e => (w', Err e) end.
Definition catch {A} (m : M A) (hd : exn -> M A) : M A :=
  fun w => let '(w', r) := m w in match r with Ok a => (w', Ok a) | Err e => hd e w' end.
Definition lift {A} (r : res A) : M A := fun w => (w, r).
Definition gets {A} (f : heap -> res A) : M A := fun w => (w, f (w_heap w)).
Notation "'do' x '<-' m ';;' k" := (bind m (fun x => k))
  (at level 200, x pattern, m at level 100, k at level 200, right associativity).
Notation "m ';;;' k" := (bind m (fun _ => k)) (at level 199, right associativity).

(** functools.lru_cache(): a hit refreshes the entry, a miss computes and stores; an exception
    is not stored *)
Definition cached (n : cname) (k : ckey) (m : M cval) : M cval :=
  fun w =>
    if w_on w then
      match lru_get (w_caches w n) k with
      | Some v => (set_cache w n (lru_touch (w_caches w n) k v), Ok v)
      | None =>
          let '(w', r) := m w in
          match r with
          | Ok v => (set_cache w' n (lru_put (w_caches w' n) k v), Ok v)
          | Err e => (w', Err e)
          end
      end
    else m w.

Definition cache_clear (n : cname) : M unit := fun w => (set_cache w n [], Ok tt).

Definition as_arr (v : cval) : res (nd xr) := match v with VArr a => Ok a | _ => Err Unmodelled end.
Definition as_strs (v : cval) : res (list string) := match v with VStrs a => Ok a | _ => Err Unmodelled end.
Definition as_fun (v : cval) : res (option compiled) := match v with VFun a => Ok a | _ => Err Unmodelled end.

(** ** Reading the heap *)
Definition opt_res {A} (o : option A) (e : exn) : res A := match o with Some a => Ok a | None => Err e end.
(** Err Unmodelled: a dangling id, i.e. a call on an object that was never created *)
Definition obj (h : heap) (o : nat) : res rt1 := opt_res (nth_error (h_objs h) o) Unmodelled.
Definition scat_at (h : heap) (s : nat) : res scat := opt_res (nth_error (h_scats h) s) Unmodelled.
Definition deref (h : heap) (v : pyval) : res (nd xr) :=
  match v with PNum x => Ok (scalar x) | PArr a => opt_res (nth_error (h_arrs h) a) Unmodelled end.
Definition sderef (h : heap) (v : sval) : res (nd xr) :=
  match v with SRaw v => deref h v | S1d v => let* a := deref h v in Ok (atleast_1d a) end.

Fixpoint list_set {A} (l : list A) (n : nat) (x : A) : list A :=
  match l, n with
  | [], _ => []
  | _ :: l', O => x :: l'
  | y :: l', S n' => y :: list_set l' n' x
  end.
Definition set_objs (h : heap) (l : list rt1) : heap := mk_heap (h_be h) (h_seng h) (h_arrs h) (h_scats h) l.
Definition put_obj (o : nat) (r : rt1) : M unit :=
  fun w => let h := w_heap w in (set_heap w (set_objs h (list_set (h_objs h) o r)), Ok tt).
Definition get_obj (o : nat) : M rt1 := gets (fun h => obj h o).

(** record updates *)
Definition with_params (r : rt1) (p : dict sval) : rt1 :=
  mk_rt1 (r_V r) (r_SRF r) (r_intQ r) (r_sig0 r) (r_dB r) (r_fn_input r) (r_fnevals_input r) (r_I0 r)
    (r_def r) p (r_fixed r) (r_mono r) (r_ang r) (r_geom r) (r_fn r) (r_fnev r) (r_plots r).
Definition with_def (r : rt1) (p : pname) (d : pdef) : rt1 :=
  mk_rt1 (r_V r) (r_SRF r) (r_intQ r) (r_sig0 r) (r_dB r) (r_fn_input r) (r_fnevals_input r) (r_I0 r)
    (fun q => match p, q with Tau, Tau | Omega, Omega | NormBRDF, NormBRDF | Bsf, Bsf => d | _, _ => r_def r q end)
    (r_params r) (r_fixed r) (r_mono r) (r_ang r) (r_geom r) (r_fn r) (r_fnev r) (r_plots r).
Definition with_ang (r : rt1) (a : angle) (v : pyval) : rt1 :=
  mk_rt1 (r_V r) (r_SRF r) (r_intQ r) (r_sig0 r) (r_dB r) (r_fn_input r) (r_fnevals_input r) (r_I0 r)
    (r_def r) (r_params r) (r_fixed r) (r_mono r)
    (fun b => if angle_eqb a b then Some v else r_ang r b) (r_geom r) (r_fn r) (r_fnev r) (r_plots r).
Definition with_fixed (r : rt1) (f : list angle) : rt1 :=
  mk_rt1 (r_V r) (r_SRF r) (r_intQ r) (r_sig0 r) (r_dB r) (r_fn_input r) (r_fnevals_input r) (r_I0 r)
    (r_def r) (r_params r) f (r_mono r) (r_ang r) (r_geom r) (r_fn r) (r_fnev r) (r_plots r).
Definition with_mode (r : rt1) (m : bool) : rt1 :=
  mk_rt1 (r_V r) (r_SRF r) (r_intQ r) (r_sig0 r) (r_dB r) (r_fn_input r) (r_fnevals_input r) (r_I0 r)
    (r_def r) (r_params r) (r_fixed r) m (r_ang r) (r_geom r) (r_fn r) (r_fnev r) (r_plots r).
Definition with_geom (r : rt1) (g : angs) : rt1 :=
  mk_rt1 (r_V r) (r_SRF r) (r_intQ r) (r_sig0 r) (r_dB r) (r_fn_input r) (r_fnevals_input r) (r_I0 r)
    (r_def r) (r_params r) (r_fixed r) (r_mono r) (r_ang r) g (r_fn r) (r_fnev r) (r_plots r).
Definition with_fn (r : rt1) (f : option (list expr)) : rt1 :=
  mk_rt1 (r_V r) (r_SRF r) (r_intQ r) (r_sig0 r) (r_dB r) (r_fn_input r) (r_fnevals_input r) (r_I0 r)
    (r_def r) (r_params r) (r_fixed r) (r_mono r) (r_ang r) (r_geom r) f (r_fnev r) (r_plots r).
Definition with_fnev (r : rt1) (c : option compiled) : rt1 :=
  mk_rt1 (r_V r) (r_SRF r) (r_intQ r) (r_sig0 r) (r_dB r) (r_fn_input r) (r_fnevals_input r) (r_I0 r)
    (r_def r) (r_params r) (r_fixed r) (r_mono r) (r_ang r) (r_geom r) (r_fn r) c (r_plots r).
Definition with_V (r : rt1) (s : nat) : rt1 :=
  mk_rt1 s (r_SRF r) (r_intQ r) (r_sig0 r) (r_dB r) (r_fn_input r) (r_fnevals_input r) (r_I0 r)
    (r_def r) (r_params r) (r_fixed r) (r_mono r) (r_ang r) (r_geom r) (r_fn r) (r_fnev r) (r_plots r).
Definition with_SRF (r : rt1) (s : nat) : rt1 :=
  mk_rt1 (r_V r) s (r_intQ r) (r_sig0 r) (r_dB r) (r_fn_input r) (r_fnevals_input r) (r_I0 r)
    (r_def r) (r_params r) (r_fixed r) (r_mono r) (r_ang r) (r_geom r) (r_fn r) (r_fnev r) (r_plots r).
Definition with_flags (r : rt1) (iq sg db : bool) : rt1 :=
  mk_rt1 (r_V r) (r_SRF r) iq sg db (r_fn_input r) (r_fnevals_input r) (r_I0 r)
    (r_def r) (r_params r) (r_fixed r) (r_mono r) (r_ang r) (r_geom r) (r_fn r) (r_fnev r) (r_plots r).
Definition with_I0 (r : rt1) (v : pyval) : rt1 :=
  mk_rt1 (r_V r) (r_SRF r) (r_intQ r) (r_sig0 r) (r_dB r) (r_fn_input r) (r_fnevals_input r) v
    (r_def r) (r_params r) (r_fixed r) (r_mono r) (r_ang r) (r_geom r) (r_fn r) (r_fnev r) (r_plots r).
Definition with_plots (r : rt1) (b : bool) : rt1 :=
  mk_rt1 (r_V r) (r_SRF r) (r_intQ r) (r_sig0 r) (r_dB r) (r_fn_input r) (r_fnevals_input r) (r_I0 r)
    (r_def r) (r_params r) (r_fixed r) (r_mono r) (r_ang r) (r_geom r) (r_fn r) (r_fnev r) b.

(** ** Geometry *)

(** stored angle attribute: AttributeError if never set; np.atleast_1d was applied when stored *)
Definition stored_ang (h : heap) (r : rt1) (a : angle) : res (nd xr) :=
  match r_ang r a with
  | None => Err AttributeError
  | Some v => let* x := deref h v in Ok (atleast_1d x)
  end.

(** _calc.py:262-270 t_0, 277-285 p_0, 287-298 t_ex, 305-316 p_ex *)
Definition read_ang (h : heap) (r : rt1) (a : angle) : res (nd xr) :=
  match a with
  | T0 | P0 => stored_ang h r a
  | TEx => if r_mono r then stored_ang h r T0 else stored_ang h r TEx
  | PEx => if r_mono r then let* p := stored_ang h r P0 in nadd p (num PI) else stored_ang h r PEx
  end.

Definition m_ang (o : nat) (a : angle) : M (nd xr) :=
  gets (fun h => let* r := obj h o in read_ang h r a).

(** _calc.py:170-172 _clear_geom_cache *)
Definition clear_geom_cache : M unit :=
  cache_clear CMu0 ;;; cache_clear CMu0x ;;; cache_clear CMuEx ;;; cache_clear CMuExx.
(** _calc.py:166-168 _clear_param_cache *)
Definition clear_param_cache : M unit := cache_clear CPFuncs ;;; cache_clear CPSymbs.

(** a fixed angle argument: a number (Python floats are rationals) or something else *)
Inductive fixarg : Type := FNum (q : Q) | FBad.

Definition ang_sym (a : angle) : expr :=
  ESym (match a with T0 => "theta_0" | TEx => "theta_ex" | P0 => "phi_0" | PEx => "phi_ex" end).

(** _calc.py:318-352 set_monostatic *)
Definition set_monostatic (o : nat) (p_0 : option fixarg) : M unit :=
  do r <- get_obj o ;;
  put_obj o (with_mode r true) ;;;
  clear_geom_cache ;;;
  do r <- get_obj o ;;
  let r := with_fnev (with_fn (with_fixed r []) None) None in
  put_obj o r ;;;
  match p_0 with
  | Some FBad => fail AssertionError
  | Some (FNum q) =>
      let r := with_fixed (with_ang r P0 (PNum (Fin (Q2R q)))) [P0] in
      put_obj o (with_geom r (mk_angs (ang_sym T0) (ang_sym T0) (ENum q) (ENum q)))
  | None =>
      put_obj o (with_geom r (mk_angs (ang_sym T0) (ang_sym T0) (ang_sym P0) (ang_sym P0)))
  end.

(** _calc.py:383-394: one iteration of the loop of set_bistatic *)
Definition bistatic_step (o : nat) (a : angle) (v : option fixarg) : M expr :=
  match v with
  | None => ret (ang_sym a)
  | Some FBad => fail AssertionError
  | Some (FNum q) =>
      do r <- get_obj o ;;
      let r := with_ang r a (PNum (Fin (Q2R q))) in
      put_obj o (with_fixed r (a :: r_fixed r)) ;;;
      ret (ENum q)
  end.

(** _calc.py:354-396 set_bistatic *)
Definition set_bistatic (o : nat) (t_0 t_ex p_0 p_ex : option fixarg) : M unit :=
  do r <- get_obj o ;;
  put_obj o (with_mode r false) ;;;
  clear_geom_cache ;;;
  do r <- get_obj o ;;
  put_obj o (with_fnev (with_fn (with_fixed r []) None) None) ;;;
  do e0 <- bistatic_step o T0 t_0 ;;
  do e1 <- bistatic_step o TEx t_ex ;;
  do e2 <- bistatic_step o P0 p_0 ;;
  do e3 <- bistatic_step o PEx p_ex ;;
  do r <- get_obj o ;;
  put_obj o (with_geom r (mk_angs e0 e1 e2 e3)).

(** _calc.py:398-401 and 444-445: one keyword of set_geometry *)
Fixpoint set_geometry_loop (o : nat) (kw : list (angle * option pyval)) : M unit :=
  match kw with
  | [] => ret tt
  | (a, v) :: kw' =>
      do r <- get_obj o ;;
      if existsb (angle_eqb a) (r_fixed r) then fail AssertionError
      else match v with
           | None => fail AssertionError
           | Some x => put_obj o (with_ang r a x) ;;; set_geometry_loop o kw'
           end
  end.

(** _calc.py:403-445 set_geometry *)
Definition set_geometry (o : nat) (kw : dict (option pyval)) : M unit :=
  match rmap (fun kv => opt_res (option_map (fun a => (a, snd kv)) (angle_of_str (fst kv))) TypeError) kw with
  | Err e => fail e
  | Ok akw =>
      do r <- get_obj o ;;
      if existsb (fun av => angle_eqb TEx (fst av) || angle_eqb PEx (fst av)) akw && r_mono r
      then fail AssertionError
      else clear_geom_cache ;;; set_geometry_loop o akw
  end.

(** ** Parameters *)

(** _calc.py:447-484 update_params *)
Definition update_params (o : nat) (kw : dict pyval) : M unit :=
  do r <- get_obj o ;;
  let kw := match r_def r Bsf with
            | DStr (ESym s) =>
                if String.eqb s "bsf" && negb (mem "bsf" (dkeys (r_params r))) && negb (mem "bsf" (dkeys kw))
                then kw ++ [("bsf"%string, PNum (Fin 0%R))] else kw
            | _ => kw
            end in
  put_obj o (with_params r (dupdate (r_params r) (map (fun kv => (fst kv, S1d (snd kv))) kw))).

(** _calc.py:222-260: the setters of NormBRDF, tau, omega, bsf *)
Definition set_def (o : nat) (p : pname) (d : pdef) : M unit :=
  clear_param_cache ;;;
  do r <- get_obj o ;; put_obj o (with_def r p d).

(** _calc.py:743-753 _get_param_symbs *)
Definition get_param_symbs (o : nat) (p : pname) : M (list string) :=
  do v <- cached CPSymbs (o, [pname_str p])
    (do r <- get_obj o ;;
     ret (VStrs (match r_def r p with DStr e => free_syms e | _ => [] end))) ;;
  lift (as_strs v).

(** _calc.py:755-767 _get_param_funcs *)
Definition get_param_funcs (o : nat) (p : pname) : M (option compiled) :=
  do v <- cached CPFuncs (o, [pname_str p])
    (do r <- get_obj o ;;
     match r_def r p with
     | DVal _ => ret (VFun None)
     | DStr e | DSym e =>
         do syms <- get_param_symbs o p ;;
         do c <- gets (fun h => lambdify (h_be h) (h_seng h) syms [e]) ;;
         ret (VFun (Some c))
     end) ;;
  lift (as_fun v).

(** the value of param_dict as arrays *)
Definition params_nd (h : heap) (r : rt1) : res (dict (nd xr)) :=
  rmap (fun kv => let* a := sderef h (snd kv) in Ok (fst kv, a)) (r_params r).

(** _calc.py:769-796 _eval_param.  Second component: the value is a Python int/float
    (a number assigned directly, or a sympy function of Python numbers only). *)
Definition eval_param (o : nat) (p : pname) : M (nd xr * bool) :=
  do func <- get_param_funcs o p ;;
  match func with
  | Some c =>
      do syms <- get_param_symbs o p ;;
      do r <- get_obj o ;;
      do res <- gets (fun h => Ok (
        let* kw := rmap (fun k => match dget (r_params r) k with
                                  | Some v => let* a := sderef h v in Ok (k, a)
                                  | None => Err KeyError
                                  end) syms in
        call1 c [] kw)) ;;
      match res with
      | Ok a => ret (a, match c_be c, shp a with Sympy, [] => true | _, _ => false end)
      | Err e =>
          match filter (fun k => negb (mem k (dkeys (r_params r)))) syms with
          | [] => fail e
          | missing => fail (MissingParams missing)
          end
      end
  | None =>
      do r <- get_obj o ;;
      match r_def r p with
      | DVal v => do a <- gets (fun h => deref h v) ;;
                  ret (a, match v with PNum _ => true | PArr _ => false end)
      | _ => fail Unmodelled
      end
  end.
Definition param_val (o : nat) (p : pname) : M (nd xr) := do v <- eval_param o p ;; ret (fst v).

(** ** Cached cosines *)

(** _calc.py:272-275 _mu_0, 300-303 _mu_ex *)
Definition mu_0 (o : nat) : M (nd xr) :=
  do v <- cached CMu0 (o, []) (do t <- m_ang o T0 ;; ret (VArr (ncos t))) ;; lift (as_arr v).
Definition mu_ex (o : nat) : M (nd xr) :=
  do v <- cached CMuEx (o, []) (do t <- m_ang o TEx ;; ret (VArr (ncos t))) ;; lift (as_arr v).

(** V.ncoefs + SRF.ncoefs - 1 *)
Definition m_nmax (o : nat) : M nat :=
  gets (fun h => let* r := obj h o in
    let* v := scat_at h (r_V r) in let* s := scat_at h (r_SRF r) in
    let* nv := ncoefs v in let* ns := ncoefs s in Ok (nv + ns - 1)).

(** _calc.py:799-813 _mu_0_x, _mu_ex_x *)
Definition mu_0_x (o : nat) : M (nd xr) :=
  do v <- cached CMu0x (o, [])
     (do n <- m_nmax o ;; do mu <- mu_0 o ;; do x <- lift (k_mux n mu) ;; ret (VArr x)) ;;
  lift (as_arr v).
Definition mu_ex_x (o : nat) : M (nd xr) :=
  do v <- cached CMuExx (o, [])
     (do n <- m_nmax o ;; do mu <- mu_ex o ;; do x <- lift (k_mux n mu) ;; ret (VArr x)) ;;
  lift (as_arr v).

(** ** Scattering functions *)
Inductive which : Type := WV | WSRF.
Definition scat_id (r : rt1) (x : which) : nat := match x with WV => r_V r | WSRF => r_SRF r end.
Definition angle_names : list string := ["theta_0"; "theta_ex"; "phi_0"; "phi_ex"]%string.

(** _scatter.py:83-105 _lambda_func, 149-175 calc *)
Definition lambda_func (sid : nat) (keys : list string) : M compiled :=
  do v <- cached CLambda (sid, keys)
     (do c <- gets (fun h => let* s := scat_at h sid in
          lambdify (h_be h) (h_seng h) (angle_names ++ keys) [phase_function s]) ;;
      ret (VFun (Some c))) ;;
  do f <- lift (as_fun v) ;;
  match f with Some c => ret c | None => fail Unmodelled end.

Definition scat_calc (sid : nat) (t0 tex p0 pex : nd xr) (kw : dict (nd xr)) : M (nd xr) :=
  do c <- lambda_func sid (dkeys kw) ;;
  lift (call1 c [t0; tex; p0; pex] kw).

(** self.V.calc(self.t_0, self.t_ex, self.p_0, self.p_ex, param_dict=self.param_dict) *)
Definition obj_scat_calc (o : nat) (x : which) : M (nd xr) :=
  do t0 <- m_ang o T0 ;; do tex <- m_ang o TEx ;; do p0 <- m_ang o P0 ;; do pex <- m_ang o PEx ;;
  do r <- get_obj o ;;
  do kw <- gets (fun h => params_nd h r) ;;
  scat_calc (scat_id r x) t0 tex p0 pex kw.

(** ** Contributions *)
Definition get_I0 (o : nat) : M (nd xr) := gets (fun h => let* r := obj h o in deref h (r_I0 r)).

(** _calc.py:608-624 _surface *)
Definition m_surface (o : nat) : M (nd xr) :=
  do i0 <- get_I0 o ;; do mu0 <- mu_0 o ;; do srf <- obj_scat_calc o WSRF ;;
  do tau <- param_val o Tau ;; do muex <- mu_ex o ;;
  do norm <- param_val o NormBRDF ;; do bsf <- param_val o Bsf ;;
  lift (k_surface i0 mu0 muex srf tau norm bsf).

(** _calc.py:649-663 _volume *)
Definition m_volume (o : nat) : M (nd xr) :=
  do i0 <- get_I0 o ;; do om <- param_val o Omega ;; do mu0 <- mu_0 o ;; do muex <- mu_ex o ;;
  do tau <- param_val o Tau ;; do v <- obj_scat_calc o WV ;;
  do bsf <- param_val o Bsf ;;
  lift (k_volume i0 om mu0 muex tau v bsf).

(** _calc.py:815-843 _fn.  symengine's expand is imported only if symengine was the backend at
    import time (_calc.py:31-33), i.e. if it is installed. *)
Definition m_fn (o : nat) : M (option (list expr)) :=
  do r <- get_obj o ;;
  match r_fn r with
  | Some f => ret (Some f)
  | None =>
      match r_fn_input r with
      | Some f => ret (Some f)
      | None =>
          if r_intQ r then
            do f <- gets (fun h =>
              let* v := scat_at h (r_V r) in let* s := scat_at h (r_SRF r) in
              let* f := calc_fn v s (r_geom r) in
              match h_be h, h_seng h with
              | Symengine, false => Err NameError
              | _, _ => Ok f
              end) ;;
            put_obj o (with_fn r (Some f)) ;;; ret (Some f)
          else ret None
      end
  end.

(** _calc.py:845-873 _fnevals.  Note the argument order theta_0, phi_0, theta_ex, phi_ex. *)
Definition fn_angle_names : list string := ["theta_0"; "phi_0"; "theta_ex"; "phi_ex"]%string.
Definition m_fnevals (o : nat) : M (option compiled) :=
  do r <- get_obj o ;;
  match r_fnev r with
  | Some c => ret (Some c)
  | None =>
      match r_fnevals_input r with
      | Some c => ret (Some c)
      | None =>
          if r_intQ r then
            do f <- m_fn o ;;
            match f with
            | None => fail Unmodelled
            | Some es =>
                do c <- gets (fun h => lambdify (h_be h) (h_seng h) (fn_angle_names ++ dkeys (r_params r)) es) ;;
                do r <- get_obj o ;;
                put_obj o (with_fnev r (Some c)) ;;; ret (Some c)
            end
          else ret None
      end
  end.

(** _calc.py:1089-1114 _calc_Fint_1 (first = true), 1116-1141 _calc_Fint_2 (first = false) *)
Definition m_Fint (o : nat) (first : bool) : M (nd xr) :=
  do t0 <- m_ang o T0 ;; do p0 <- m_ang o P0 ;; do tex <- m_ang o TEx ;; do pex <- m_ang o PEx ;;
  do r <- get_obj o ;;
  do kw <- gets (fun h => params_nd h r) ;;
  do args <- lift (broadcast_arrays
     ((if first then [t0; p0; tex; pex] else [tex; pex; t0; p0]) ++ dvals kw)) ;;
  do c <- m_fnevals o ;;
  match c with
  | None => fail TypeError                       (** 'NoneType' object is not callable *)
  | Some c =>
      do fns <- lift (call c args []) ;;
      do mux <- (if first then mu_0_x o else mu_ex_x o) ;;
      do mu <- (if first then mu_0 o else mu_ex o) ;;
      do tau <- param_val o Tau ;;
      do n <- m_nmax o ;;
      lift (k_Fint n fns mux mu tau)
  end.

(** _calc.py:688-703 _interaction *)
Definition m_interaction (o : nat) : M (nd xr) :=
  do f1 <- m_Fint o true ;; do f2 <- m_Fint o false ;;
  do i0 <- get_I0 o ;; do mu0 <- mu_0 o ;; do om <- param_val o Omega ;;
  do tau <- param_val o Tau ;; do muex <- mu_ex o ;;
  do norm <- param_val o NormBRDF ;; do bsf <- param_val o Bsf ;;
  lift (k_interaction i0 mu0 muex om tau norm bsf f1 f2).

(** _calc.py:714-730 _convert_sig0_db *)
Definition m_convert (o : nat) (val : nd xr) : M (nd xr) :=
  do r <- get_obj o ;;
  if r_sig0 r then
    do mu0 <- mu_0 o ;; do i0 <- get_I0 o ;;
    lift (k_convert true (r_dB r) i0 mu0 val)
  else lift (k_convert false (r_dB r) (num 1) (num 1) val).

(** _calc.py:732-741 _all_param_symbs *)
Definition all_param_symbs (o : nat) : M (list string) :=
  do a <- get_param_symbs o Tau ;; do b <- get_param_symbs o Omega ;;
  do c <- get_param_symbs o NormBRDF ;; do d <- get_param_symbs o Bsf ;;
  ret (a ++ b ++ c ++ d).

(** _calc.py:515-560: the body of the try block of calc, after update_params *)
Definition m_calc_body (o : nat) : M (nd xr) :=
  do tv <- eval_param o Tau ;;
  do r <- get_obj o ;;
  let '(tau, is_num) := tv in
  do parts <-
    (if is_num : bool then
       do isurf <- m_surface o ;;
       if xgt0 (get tau []) then
         do ivol <- m_volume o ;;
         do iint <- (if r_intQ r then m_interaction o else ret (mk_nd [1] (fun _ => Fin 0%R))) ;;
         ret (isurf, ivol, Some iint)
       else ret (isurf, zeros_like isurf, Some (zeros_like isurf))
     else
       do isurf <- m_surface o ;;
       do ivol <- m_volume o ;;
       if r_intQ r then
         do iint <- m_interaction o ;;
         do tau' <- param_val o Tau ;;
         do iint <- lift (k_fix_nan iint tau') ;;
         ret (isurf, ivol, Some iint)
       else ret (isurf, ivol, None)) ;;
  let '(isurf, ivol, iint) := parts in
  do rows <- lift (k_rows isurf ivol (if r_intQ r then iint else None)) ;;
  m_convert o rows.

Definition dedup_diff (l : list string) (minus : list string) : list string :=
  filter (fun s => negb (mem s minus)) (dedup l).

(** _calc.py:486-583 calc *)
Definition m_calc (o : nat) (params : dict pyval) : M (nd xr) :=
  catch (update_params o params ;;; m_calc_body o)
    (fun e =>
       match e with
       | TypeError | MissingParams _ =>
           do ss <- all_param_symbs o ;;
           do r <- get_obj o ;;
           do symbs <- gets (fun h =>
             let* v := scat_at h (r_V r) in let* s := scat_at h (r_SRF r) in
             Ok (dedup_diff (ss ++ free_syms (phase_function v) ++ free_syms (phase_function s))
                            (angle_names ++ dkeys (r_params r)))) ;;
           match symbs with [] => fail e | _ => fail (MissingParams symbs) end
       | _ => fail e
       end).

(** _calc.py:585-606, 626-647, 665-686: surface(), volume(), interaction() *)
Definition api_surface (o : nat) (params : dict pyval) : M (nd xr) :=
  update_params o params ;;; do v <- m_surface o ;; m_convert o v.
Definition api_volume (o : nat) (params : dict pyval) : M (nd xr) :=
  update_params o params ;;; do v <- m_volume o ;; m_convert o v.
Definition api_interaction (o : nat) (params : dict pyval) : M (nd xr) :=
  update_params o params ;;; do v <- m_interaction o ;; m_convert o v.
