(** Histories: the public API as a list of operations on a world. *)
From Verif Require Export Jacobian.
Open Scope nat_scope.

Definition add_obj (r : rt1) : M nat :=
  fun w => let h := w_heap w in
           (set_heap w (set_objs h (h_objs h ++ [r])), Ok (length (h_objs h))).

Definition default_def (p : pname) : pdef := DStr (ESym (pname_str p)).
Definition geom_mono : angs := mk_angs (ang_sym T0) (ang_sym T0) (ang_sym P0) (ang_sym P0).

(** _calc.py:87-125 __init__ up to the call of set_monostatic() *)
Definition blank (V SRF : nat) (iq sg db : bool) (fi : option (list expr)) (fe : option compiled)
  (i0 : pyval) : rt1 :=
  mk_rt1 V SRF iq sg db fi fe i0 default_def [("bsf"%string, SRaw (PNum (Fin 0%R)))] [] true
    (fun _ => None) geom_mono None None true.

(** RT1(V, SRF, ...).  V/SRF None: AssertionError (_calc.py:98-102) *)
Definition new_rt1 (V SRF : option nat) (iq sg db : bool) (fi : option (list expr))
  (fe : option compiled) (i0 : pyval) : M nat :=
  match V, SRF with
  | Some v, Some s =>
      do o <- add_obj (blank v s iq sg db fi fe i0) ;;
      set_monostatic o None ;;; ret o
  | _, _ => fail AssertionError
  end.

(** __init__.py:29-52 set_lambda_backend *)
Definition backend_of_str (s : string) : option backend :=
  if String.eqb s "sympy" then Some Sympy
  else if String.eqb s "symengine" then Some Symengine else None.
Definition backend_str (b : backend) : string :=
  match b with Sympy => "sympy" | Symengine => "symengine" end.
Definition set_lambda_backend (s : string) : M unit :=
  match backend_of_str s with
  | None => fail AssertionError
  | Some b => fun w => let h := w_heap w in
      (set_heap w (mk_heap b (h_seng h) (h_arrs h) (h_scats h) (h_objs h)), Ok tt)
  end.

(** _calc.py:127-150 __getstate__ run on the live object by pickling (cloudpickle), followed by
    unpickling into a new object.  The keys "_RT1__fn" and "_fn_input" never exist in __dict__
    (the attributes are called _fn_ and fn_input), so only analyze/analyze3d change, and nothing
    re-attaches them.  The copy is deep: its own scatter objects and its own arrays.
    (Simplification: arrays and scatter objects are immutable values for the copy, so it refers to
    fresh copies of the scatter objects and to fresh copies of the arrays.) *)
Definition add_scat (s : scat) : M nat :=
  fun w => let h := w_heap w in
    (set_heap w (mk_heap (h_be h) (h_seng h) (h_arrs h) (h_scats h ++ [s]) (h_objs h)), Ok (length (h_scats h))).
Definition add_arr (a : nd xr) : M nat :=
  fun w => let h := w_heap w in
    (set_heap w (mk_heap (h_be h) (h_seng h) (h_arrs h ++ [a]) (h_scats h) (h_objs h)), Ok (length (h_arrs h))).
Definition copy_val (v : pyval) : M pyval :=
  match v with
  | PNum x => ret (PNum x)
  | PArr _ => do a <- gets (fun h => deref h v) ;; do i <- add_arr a ;; ret (PArr i)
  end.
Definition copy_sval (v : sval) : M sval :=
  match v with
  | SRaw v => do x <- copy_val v ;; ret (SRaw x)
  | S1d v => do x <- copy_val v ;; ret (S1d x)
  end.
Fixpoint copy_params (d : dict sval) : M (dict sval) :=
  match d with
  | [] => ret []
  | (k, v) :: d' => do x <- copy_sval v ;; do xs <- copy_params d' ;; ret ((k, x) :: xs)
  end.
Definition copy_opt (v : option pyval) : M (option pyval) :=
  match v with None => ret None | Some v => do x <- copy_val v ;; ret (Some x) end.
Definition copy_def (d : pdef) : M pdef :=
  match d with DVal v => do x <- copy_val v ;; ret (DVal x) | _ => ret d end.

Definition getstate (o : nat) : M unit :=
  do r <- get_obj o ;; put_obj o (with_plots r false).
Definition pickle_copy (o : nat) : M nat :=
  getstate o ;;;
  do r <- get_obj o ;;
  do v <- gets (fun h => scat_at h (r_V r)) ;; do sv <- add_scat v ;;
  do s <- gets (fun h => scat_at h (r_SRF r)) ;; do ss <- add_scat s ;;
  do i0 <- copy_val (r_I0 r) ;;
  do dt <- copy_def (r_def r Tau) ;; do dO <- copy_def (r_def r Omega) ;;
  do dn <- copy_def (r_def r NormBRDF) ;; do db <- copy_def (r_def r Bsf) ;;
  do ps <- copy_params (r_params r) ;;
  do t0 <- copy_opt (r_ang r T0) ;; do tex <- copy_opt (r_ang r TEx) ;;
  do p0 <- copy_opt (r_ang r P0) ;; do pex <- copy_opt (r_ang r PEx) ;;
  add_obj (mk_rt1 sv ss (r_intQ r) (r_sig0 r) (r_dB r) (r_fn_input r) (r_fnevals_input r) i0
    (fun p => match p with Tau => dt | Omega => dO | NormBRDF => dn | Bsf => db end)
    ps (r_fixed r) (r_mono r)
    (fun a => match a with T0 => t0 | TEx => tex | P0 => p0 | PEx => pex end)
    (r_geom r) (r_fn r) (r_fnev r) (r_plots r)).

(** R.analyze(...): calling None is a TypeError *)
Definition analyze_callable (o : nat) : M unit :=
  do r <- get_obj o ;; if r_plots r then ret tt else fail TypeError.

(** caller writes into an array it holds (shape is kept) *)
Definition mutate (aid : nat) (f : list nat -> xr) : M unit :=
  fun w => let h := w_heap w in
    match nth_error (h_arrs h) aid with
    | None => (w, Err Unmodelled)
    | Some a => (set_heap w (mk_heap (h_be h) (h_seng h)
                  (list_set (h_arrs h) aid (mk_nd (shp a) f)) (h_scats h) (h_objs h)), Ok tt)
    end.

(** ** Operations *)
Inductive op : Type :=
| ONewArr (a : nd xr)
| ONewScat (s : scat)
| ONew (V SRF : option nat) (iq sg db : bool) (fi : option (list expr)) (fe : option compiled) (i0 : pyval)
| OSetGeometry (o : nat) (kw : dict (option pyval))
| OSetMono (o : nat) (p0 : option fixarg)
| OSetBi (o : nat) (t0 tex p0 pex : option fixarg)
| OUpdate (o : nat) (kw : dict pyval)
| OSetDef (o : nat) (p : pname) (d : pdef)
| OSetFlags (o : nat) (iq sg db : bool)
| OSetI0 (o : nat) (v : pyval)
| OSetV (o : nat) (s : nat)
| OSetSRF (o : nat) (s : nat)
| OReadAngle (o : nat) (a : angle)
| OReadParam (o : nat) (p : pname)
| OCalc (o : nat) (kw : dict pyval)
| OSurface (o : nat) (kw : dict pyval)
| OVolume (o : nat) (kw : dict pyval)
| OInteraction (o : nat) (kw : dict pyval)
| OJacobian (o : nat) (keys : list string) (format : string)
| OScatCalc (s : nat) (t0 tex p0 pex : nd xr) (kw : dict (nd xr))
| OPickle (o : nat)
| OAnalyze (o : nat)
| OSetBackend (s : string)
| OMutate (aid : nat) (f : list nat -> xr)
| OParamDict (o : nat)                     (** R.param_dict (_calc.py:212-220) *)
| OGetBackend                              (** get_lambda_backend() (__init__.py:21-26) *)
| OSymbs (o : nat)                         (** R._all_param_symbs (_calc.py:732-741), read by the widgets (plot.py:399); result not used *)
| OClear (o : nat).                        (** R._clear_cache() without arguments (_calc.py:152-164), called by Analyze3D (plot.py:680) *)

(** observable result of an operation *)
Inductive out : Type :=
| RetNone
| RetId (n : nat)
| RetArr (a : nd xr)
| RetJac (j : jac_out)
| RetDict (d : dict (nd xr))
| RetStr (s : string)
| Raised (e : exn).

Definition as_out {A} (f : A -> out) (m : M A) : world -> world * out :=
  fun w => let '(w', r) := m w in (w', match r with Ok a => f a | Err e => Raised e end).
Definition none_of {A} (_ : A) : out := RetNone.

Definition step (w : world) (p : op) : world * out :=
  match p with
  | ONewArr a => as_out RetId (add_arr a) w
  | ONewScat s => as_out RetId (add_scat s) w
  | ONew V SRF iq sg db fi fe i0 => as_out RetId (new_rt1 V SRF iq sg db fi fe i0) w
  | OSetGeometry o kw => as_out none_of (set_geometry o kw) w
  | OSetMono o p0 => as_out none_of (set_monostatic o p0) w
  | OSetBi o t0 tex p0 pex => as_out none_of (set_bistatic o t0 tex p0 pex) w
  | OUpdate o kw => as_out none_of (update_params o kw) w
  | OSetDef o p d => as_out none_of (set_def o p d) w
  | OSetFlags o iq sg db => as_out none_of (do r <- get_obj o ;; put_obj o (with_flags r iq sg db)) w
  | OSetI0 o v => as_out none_of (do r <- get_obj o ;; put_obj o (with_I0 r v)) w
  | OSetV o s => as_out none_of (do r <- get_obj o ;; put_obj o (with_V r s)) w
  | OSetSRF o s => as_out none_of (do r <- get_obj o ;; put_obj o (with_SRF r s)) w
  | OReadAngle o a => as_out RetArr (m_ang o a) w
  | OReadParam o p => as_out RetArr (param_val o p) w
  | OCalc o kw => as_out RetArr (m_calc o kw) w
  | OSurface o kw => as_out RetArr (api_surface o kw) w
  | OVolume o kw => as_out RetArr (api_volume o kw) w
  | OInteraction o kw => as_out RetArr (api_interaction o kw) w
  | OJacobian o keys f => as_out RetJac (api_jacobian o keys f) w
  | OScatCalc s t0 tex p0 pex kw => as_out RetArr (scat_calc s t0 tex p0 pex kw) w
  | OPickle o => as_out RetId (pickle_copy o) w
  | OAnalyze o => as_out none_of (analyze_callable o) w
  | OSetBackend s => as_out none_of (set_lambda_backend s) w
  | OMutate aid f => as_out none_of (mutate aid f) w
  | OParamDict o => as_out RetDict (gets (fun h => let* r := obj h o in params_nd h r)) w
  | OGetBackend => as_out RetStr (gets (fun h => Ok (backend_str (h_be h)))) w
  | OSymbs o => as_out none_of (all_param_symbs o) w
  | OClear o => as_out none_of (do _ <- get_obj o ;;
      cache_clear CMu0 ;;; cache_clear CMu0x ;;; cache_clear CMuEx ;;; cache_clear CMuExx ;;;
      cache_clear CPFuncs ;;; cache_clear CPSymbs ;;; cache_clear CDVol ;;; cache_clear CDSrf) w
  end.

Fixpoint run (w : world) (ps : list op) : world * list out :=
  match ps with
  | [] => (w, [])
  | p :: ps' => let '(w1, x) := step w p in let '(w2, xs) := run w1 ps' in (w2, x :: xs)
  end.

(** freshly imported package; [seng]: symengine installed (__init__.py:11-18) *)
Definition init_heap (seng : bool) : heap :=
  mk_heap (if seng then Symengine else Sympy) seng [] [] [].
Definition init (seng on : bool) : world := mk_world (init_heap seng) on (fun _ => []).
