(** The constructor of the Analyze widget (plot.py:396-480): the check of the given parameters and what is done to
    the RT1 object before the first lines are computed.
    Not modelled: the figure, and the warning about the geometry. *)
From Verif Require Export Plot.
Open Scope string_scope. Open Scope nat_scope. Open Scope list_scope.

(** plot.py:396-424 _check_params: the names in use; AssertionError if one of them has neither a given nor a stored
    value.  (Python sets: lists without duplicates whose order carries no information.) *)
Definition check_params (o : nat) (given additional : list string) : M (list string) :=
  do ss <- all_param_symbs o ;;
  do r <- get_obj o ;;
  do fs <- gets (fun h =>
    let* v := scat_at h (r_V r) in let* s := scat_at h (r_SRF r) in
    Ok (free_syms (phase_function v) ++ free_syms (phase_function s))) ;;
  let symbs := dedup (dedup_diff (ss ++ fs) angle_names ++ additional) in
  let ignored_params := filter (fun s => negb (mem s given)) symbs in
  match ignored_params with
  | [] => ret symbs
  | _ =>
      match filter (fun s => negb (mem s (dkeys (r_params r)))) ignored_params with
      | [] => ret symbs
      | _ => fail AssertionError
      end
  end.

(** plot.py:466-480 Analyze.__init__ up to the sliders: geometry, check, and one slider for each given parameter in use
    (plot.py:473 keeps only those) *)
Definition analyze_sliders (o : nat) (kw : dict (list entry)) : M (dict slider) :=
  analyze_geometry o ;;;
  do symbs <- check_params o (dkeys kw) [] ;;
  lift (init_sliders (filter (fun kv => mem (fst kv) symbs) kw)).
(** plot.py:556-558: the first statement of the first update *)
Definition analyze_start (o : nat) (kw : dict (list entry)) : M (dict slider) :=
  do sl <- analyze_sliders o kw ;; call_op (OUpdate o (slider_vals sl)) ;;; ret sl.

(** ** Analyze3D *)

(** plot.py:685 [["tsvi".index(i) for i in contributions]] *)
Fixpoint use_contribs (c : string) : res (list nat) :=
  match c with
  | EmptyString => Ok []
  | String a c' =>
      match index 0 (String a EmptyString) "tsvi" with
      | Some n => let* l := use_contribs c' in Ok (n :: l)
      | None => Err ValueError
      end
  end.

(** plot.py:693-695: np.linspace(0, 89, n) and np.linspace(-180, 180, n) in radians, np.meshgrid of the two: arrays of
    shape (n, n), the first varying along the last axis (shapes and positions are stored reversed) *)
Definition lin (a b : R) (n i : nat) : R := (a + INR i * ((b - a) / INR (n - 1)))%R.
Definition mesh_tex (n : nat) : nd xr := mk_nd [n; n] (fun i => Fin (lin 0 89 n (nth 0 i 0%nat) * (PI / 180))%R).
Definition mesh_pex (n : nat) : nd xr := mk_nd [n; n] (fun i => Fin (lin (-180) 180 n (nth 1 i 0%nat) * (PI / 180))%R).
(** plot.py:702: np.full_like(t_ex, np.deg2rad(45)) *)
Definition mesh_t0 (n : nat) : nd xr := mk_nd [n; n] (fun _ => Fin (45 * (PI / 180))%R).

(** plot.py:672-705: linear units, all caches cleared, contributions, geometry.  (The warnings are left out.) *)
Definition analyze3d_geometry (o : nat) (contributions : string) (n : nat) : M (list nat) :=
  do r <- get_obj o ;;
  call_op (OSetFlags o (r_intQ r) (r_sig0 r) false) ;;;
  call_op (OClear o) ;;;
  do us <- lift (use_contribs contributions) ;;
  call_op (OSetBi o None None (Some (FNum 0%Q)) None) ;;;
  do i <- add_arr (mesh_t0 n) ;;
  do j <- add_arr (mesh_tex n) ;;
  do k <- add_arr (mesh_pex n) ;;
  call_op (OSetGeometry o [("t_0", Some (PArr i)); ("t_ex", Some (PArr j)); ("p_ex", Some (PArr k))]) ;;;
  ret us.

(** plot.py:747-759: the slider of the incidence angle *)
Definition inc_slider : slider := mk_slider (1 / 10) (899 / 10) 45 "$\theta_0$".
(** plot.py:709-745, 759: the check, the sliders of the given parameters in use, and [self.sliders["inc"] = s] *)
Definition analyze3d_sliders (o : nat) (contributions : string) (n : nat) (kw : dict (list entry)) : M (list nat * dict slider) :=
  do us <- analyze3d_geometry o contributions n ;;
  do symbs <- check_params o (dkeys kw) [] ;;
  do sl <- lift (init_sliders (filter (fun kv => mem (fst kv) symbs) kw)) ;;
  ret (us, dset sl "inc" inc_slider).

(** plot.py:811-812: [startvals.pop("inc")], the other values are parameters *)
Definition without_inc (sl : dict slider) : dict slider := filter (fun ks => negb (String.eqb (fst ks) "inc")) sl.
(** plot.py:788-791 at the end of _getvals: the points of all contributions *)
Definition points (o : nat) (v : out) : M (nd xr * nd xr * nd xr) :=
  do tex <- m_ang o TEx ;;
  do pex <- m_ang o PEx ;;
  match v with
  | RetArr res =>
      lift (let* rs := nmul res (map1 xsin tex) in
            let* x := nmul rs (ncos pex) in
            let* y := nmul rs (map1 xsin pex) in
            let* z := nmul res (ncos tex) in
            Ok (x, y, z))
  | _ => fail TypeError
  end.
(** result[k] *)
Definition pick (a : nd xr) (k : nat) : nd xr := mk_nd (removelast (shp a)) (fun i => get a (i ++ [k])).
(** plot.py:806-850 _update: what is plotted as surfaces (plot.py:838-850), one entry for each selected contribution.
    (IndexError for a contribution that was not evaluated; the arrow and the axis limits are left out.) *)
Definition update3d (o : nat) (contributions : string) (us : list nat) (sl : dict slider) : M (list (nat * (nd xr * nd xr * nd xr))) :=
  match dget sl "inc" with
  | None => fail KeyError
  | Some s =>
      do v <- analyze3d_update o contributions (without_inc sl) (sl_val s) ;;
      do xyz <- points o v ;;
      let '(x, y, z) := xyz in
      lift (rmap (fun k => if k <? last (shp x) 0 then Ok (k, (pick x k, pick y k, pick z k)) else Err IndexError) us)
  end.

(** the widget from its construction up to the first evaluation *)
Definition start3d (o : nat) (contributions : string) (n : nat) (kw : dict (list entry)) : M (list nat * dict slider) :=
  do us_sl <- analyze3d_sliders o contributions n kw ;;
  call_op (OUpdate o (slider_vals (without_inc (snd us_sl)))) ;;;
  ret us_sl.
(** moving sliders, each followed by an update; an exception in a callback is reported by matplotlib and the widget
    stays in use. The evaluation at the end of the constructor (plot.py:718, _update(None)) is the step with a name
    that has no slider: it moves nothing and evaluates. *)
Fixpoint move3d (sl : dict slider) (es : list (string * R)) : dict slider :=
  match es with [] => sl | (k, x) :: es' => move3d (next_sliders sl (EvSlide k x)) es' end.
Fixpoint play3d (o : nat) (contributions : string) (us : list nat) (sl : dict slider) (es : list (string * R)) (w : world) : world :=
  match es with
  | [] => w
  | (k, x) :: es' =>
      let sl' := next_sliders sl (EvSlide k x) in play3d o contributions us sl' es' (fst (update3d o contributions us sl' w))
  end.
