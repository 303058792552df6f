(** polarplot (plot.py:20-250): the numbers it draws.
    Not modelled: the figure itself (axes, colours, legend, arrows; plot.py:129-135, 180-249), the type checks of inc,
    multip and ax (plot.py:98-106, 135), the text of warnings and error messages, and a tuple given for V_SRF. *)
From Verif Require Export Hem.
Open Scope string_scope. Open Scope nat_scope. Open Scope list_scope.

(** plot.py:137-150: the names used for the four angles of the approximation, and the zenith angles at which the
    functions are drawn ([surf]: V_SRF is a surface function) *)
Definition polar_angs (surf : bool) : list string :=
  if surf then ["theta_ex"; "theta_s"; "phi_ex"; "phi_s"] else ["theta_0"; "theta_s"; "phi_0"; "phi_s"].
Definition polar_thetas (surf : bool) : res (list R) :=
  (if surf then arange (- (PI / 2)) (PI / 2) (1 / 100) else arange 0 (2 * PI) (1 / 100))%R.
Definition row_of (l : list R) : nd xr := mk_nd [length l] (fun i => Fin (nth (hd 0 i) l 0%R)).

(** np.squeeze *)
Fixpoint unsqueeze (s i : list nat) : list nat :=
  match s with
  | [] => []
  | d :: s' => if d =? 1 then 0 :: unsqueeze s' i else hd 0 i :: unsqueeze s' (tl i)
  end.
Definition squeeze (a : nd xr) : nd xr := mk_nd (filter (fun d => negb (d =? 1)) (shp a)) (fun i => get a (unsqueeze (shp a) i)).

(** matplotlib: ax.plot(x, y) with x of shape (n,): ValueError unless y has n points (more than one axis: not modelled) *)
Definition drawn (x y : nd xr) : res (nd xr) :=
  match shp x, shp y with
  | [n], [] => if n =? 1 then Ok y else Err ValueError
  | [n], [m] => if n =? m then Ok y else Err ValueError
  | _, _ => Err Unmodelled
  end.

(** plot.py:156-159: the approximation compiled for one set of parameters *)
Definition polar_approx (surf : bool) (sid : nat) (keys : list string) : M compiled :=
  gets (fun h =>
    let* s := scat_at h sid in
    let* e := match polar_angs surf with
              | [a; b; c; d] => legendre_expansion (ESym a) (ESym b) (ESym c) (ESym d) s
              | _ => Err Unmodelled
              end in
    lambdify (h_be h) (h_seng h) (polar_angs surf ++ keys) [e]).

(** plot.py:167-184: the two lines of one incidence angle *)
Definition polar_line (sid : nat) (c : option compiled) (x : nd xr) (kw : dict (nd xr)) (ti : R) : M (nd xr * option (nd xr)) :=
  do r <- call_op (OScatCalc sid (num ti) x (num 0) (num 0) kw) ;;
  match r with
  | RetArr rad =>
      lift (let* ra := match c with
                       | None => Ok None
                       | Some c => let* a := call1 c [num ti; x; num 0; num 0] kw in Ok (Some (squeeze a))
                       end in
            let* y := drawn x rad in
            let* z := match ra with None => Ok None | Some a => let* b := drawn x a in Ok (Some b) end in
            Ok (y, z))
  | _ => fail Unmodelled
  end.
(** plot.py:161-184: all incidence angles (given in degrees) *)
Fixpoint polar_lines (sid : nat) (c : option compiled) (x : nd xr) (kw : dict (nd xr)) (inc : list R) : M (list (nd xr * option (nd xr))) :=
  match inc with
  | [] => ret []
  | i :: inc' => do l <- polar_line sid c x kw (deg2rad i) ;; do ls <- polar_lines sid c x kw inc' ;; ret (l :: ls)
  end.
(** plot.py:154-184: all sets of parameters *)
Fixpoint polar_sets (surf : bool) (sid : nat) (aprox : bool) (x : nd xr) (inc : list R) (pds : list (dict (nd xr)))
  : M (list (list (nd xr * option (nd xr)))) :=
  match pds with
  | [] => ret []
  | kw :: pds' =>
      do c <- (if aprox then do c <- polar_approx surf sid (dkeys kw) ;; ret (Some c) else ret None) ;;
      do ls <- polar_lines sid c x kw inc ;;
      do lss <- polar_sets surf sid aprox x inc pds' ;; ret (ls :: lss)
  end.
(** plot.py:115-127: the names that a set of parameters has to define *)
Definition polar_required (s : scat) : list string := filter (fun v => negb (mem v angle_names)) (syms (phase_function s)).
(** plot.py:89-96 (no approximation without ncoefs), 110-127, 152-184; param_dict given as a list (None is [{}], plot.py:110-113) *)
Definition polarplot (surf : bool) (sid : nat) (inc : list R) (aprox : bool) (pds : list (dict (nd xr)))
  : M (list (list (nd xr * option (nd xr)))) :=
  do s <- gets (fun h => scat_at h sid) ;;
  let aprox := aprox && match ncoefs s with Ok _ => true | Err _ => false end in
  if negb (forallb (fun kw => subset_b (polar_required s) (dkeys kw)) pds) then fail AssertionError
  else
    do l <- lift (polar_thetas surf) ;;
    polar_sets surf sid aprox (row_of l) inc pds.
