(** The interactive widgets of plot.py, as far as they act on the RT1 object: how slider
    specifications are parsed, and what one update of Analyze / Analyze3D does.
    Not modelled: figures, axes, artists, colours, limits, legends (matplotlib). *)
From Verif Require Export Machine.
Open Scope string_scope. Open Scope nat_scope. Open Scope list_scope.

(** ** Slider specifications *)

(** one entry of a tuple (min, max, [start], [name]) *)
Inductive entry : Type := ENumb (x : R) | EText (s : string).

(** keyword arguments handed to matplotlib's Slider *)
Record slider_args : Type := mk_sargs { a_valmin : entry; a_valmax : entry; a_valinit : entry; a_label : string }.

(** plot.py:543-553 Analyze._parse_parameters, for one parameter [key] with tuple [val].
    [dict(zip(["valmin","valmax","valinit"], val))] keeps the first three entries;
    [(p["valmax"] - p["valmin"]) / 2] is evaluated whether or not it is used: KeyError when an entry
    is missing, TypeError when one of the two is not a number; the fourth entry is not used. *)
Definition parse_parameter (key : string) (val : list entry) : res slider_args :=
  match val with
  | mn :: mx :: rest =>
      match mx, mn with
      | ENumb b, ENumb a =>
          Ok (mk_sargs mn mx (match rest with i :: _ => i | [] => ENumb ((b - a) / 2)%R end) key)
      | _, _ => Err TypeError
      end
  | _ => Err KeyError
  end.

(** the loop over all parameters *)
Definition parse_parameters (kw : dict (list entry)) : res (dict slider_args) :=
  rmap (fun kv => let* s := parse_parameter (fst kv) (snd kv) in Ok (fst kv, s)) kw.

(** a matplotlib Slider: its range, current value and label.  External: matplotlib clips the initial
    value and every later value into the range (Slider._value_in_bounds); text values are a TypeError. *)
Record slider : Type := mk_slider { sl_min : R; sl_max : R; sl_val : R; sl_label : string }.
Definition clip (mn mx x : R) : R :=
  if Rle_dec x mn then mn else if Rle_dec mx x then mx else x.
Definition make_slider (a : slider_args) : res slider :=
  match a_valmin a, a_valmax a, a_valinit a with
  | ENumb mn, ENumb mx, ENumb i => Ok (mk_slider mn mx (clip mn mx i) (a_label a))
  | _, _, _ => Err TypeError
  end.
Definition set_val (s : slider) (x : R) : slider := mk_slider (sl_min s) (sl_max s) (clip (sl_min s) (sl_max s) x) (sl_label s).

(** plot.py:508-513 / 737-745: one slider per parsed parameter *)
Definition init_sliders (kw : dict (list entry)) : res (dict slider) :=
  let* ps := parse_parameters kw in
  rmap (fun kv => let* s := make_slider (snd kv) in Ok (fst kv, s)) ps.

(** ** Acting on the RT1 object *)
Definition call_op (p : op) : M out :=
  fun w => let '(w', x) := step w p in (w', match x with Raised e => Err e | y => Ok y end).

(** [{key: s.val for key, s in self.sliders.items()}] *)
Definition slider_vals (sl : dict slider) : dict pyval := map (fun ks => (fst ks, PNum (Fin (sl_val (snd ks))))) sl.

(** np.full((n, 1), v) and np.linspace(a, b, n)[:, np.newaxis] *)
Definition col_full (n : nat) (v : R) : nd xr := mk_nd [1; n] (fun _ => Fin v).
Definition col_linspace (n : nat) (a b : R) : nd xr :=
  mk_nd [1; n] (fun i => Fin (a + INR (nth 1 i 0%nat) * ((b - a) / INR (n - 1)))%R).

(** plot.py:619-627: a column of sample values for every slider, the range parameter's column
    replaced by samples of its range (every array is a new one) *)
Definition sample_col (n : nat) (rp : string) (ks : string * slider) : nd xr :=
  if String.eqb rp (fst ks) then col_linspace n (sl_min (snd ks)) (sl_max (snd ks)) else col_full n (sl_val (snd ks)).
Fixpoint sample_kw (n : nat) (rp : string) (sl : dict slider) : M (dict pyval) :=
  match sl with
  | [] => ret []
  | ks :: sl' => do i <- add_arr (sample_col n rp ks) ;; do d <- sample_kw n rp sl' ;; ret ((fst ks, PArr i) :: d)
  end.

(** plot.py:618-631 Analyze._get_range_lines (KeyError when the range parameter has no slider) *)
Definition get_range_lines (o : nat) (n : nat) (rp : string) (sl : dict slider) : M out :=
  match dget sl rp with
  | None => fail KeyError
  | Some _ => do kw <- sample_kw n rp sl ;; call_op (OUpdate o kw) ;;; call_op (OCalc o [])
  end.

(** plot.py:555-616 Analyze._update: the contributions shown as lines, and the ones shown as the
    range of the selected parameter.  (The extra line of surface + volume,
    plot.py:561-562, is [m_surface_volume] of SurfVol.v; it cannot fail after calc() and changes nothing: C95.) *)
Definition analyze_update (o : nat) (sl : dict slider) (range : option string) : M (out * option out) :=
  call_op (OUpdate o (slider_vals sl)) ;;;
  do c <- call_op (OCalc o []) ;;
  match range with
  | None => ret (c, None)
  | Some rp => do r <- get_range_lines o 20 rp sl ;; ret (c, Some r)
  end.

(** plot.py:466-467 geometry set by Analyze.__init__: monostatic, p_0 = 0, and incidence angles of 10 to 80 degrees
    in a (1, 100) array *)
Definition inc_angles : nd xr :=
  mk_nd [100; 1] (fun i => Fin ((10 + INR (nth 0 i 0%nat) * ((80 - 10) / 99)) * (PI / 180))%R).
Definition analyze_geometry (o : nat) : M unit :=
  call_op (OSetMono o (Some (FNum 0%Q))) ;;;
  do i <- add_arr inc_angles ;;
  call_op (OSetGeometry o [("t_0", Some (PArr i))]) ;;; ret tt.

(** events: a slider is moved, or another range parameter is selected *)
Inductive event : Type := EvSlide (key : string) (x : R) | EvRange (rp : option string).
Definition next_sliders (sl : dict slider) (e : event) : dict slider :=
  match e with
  | EvSlide k x => map (fun ks => if String.eqb k (fst ks) then (fst ks, set_val (snd ks) x) else ks) sl
  | EvRange _ => sl
  end.
Definition next_range (rg : option string) (e : event) : option string :=
  match e with EvSlide _ _ => rg | EvRange r => r end.

(** the widget: its sliders and selected range.  An exception in one callback is reported by matplotlib;
    the widget stays in use. *)
Definition widget : Type := (dict slider * option string)%type.
Definition next_widget (a : widget) (e : event) : widget := (next_sliders (fst a) e, next_range (snd a) e).
Fixpoint play (o : nat) (a : widget) (es : list event) (w : world) : world :=
  match es with
  | [] => w
  | e :: es' => let a' := next_widget a e in play o a' es' (fst (analyze_update o (fst a') (snd a') w))
  end.

(** ** Analyze3D *)

(** plot.py:765-776 _cx_set_intq: [with self._cx_set_intq(): body] *)
Definition cx_set_intq {A} (o : nat) (contributions : string) (body : M A) : M A :=
  do r <- get_obj o ;;
  let init_int_q := r_intQ r in
  fun w =>
    let '(w1, x) :=
      (do r <- get_obj o ;; put_obj o (with_flags r (if index 0 "i" contributions then true else false) (r_sig0 r) (r_dB r)) ;;;
       body) w in
    let '(w2, y) := (do r <- get_obj o ;; put_obj o (with_flags r init_int_q (r_sig0 r) (r_dB r))) w1 in
    (w2, match y with Err e => Err e | Ok _ => x end).

(** plot.py:778-791 _getvals: the new incidence angle, then the evaluation.  [np.full_like(R.t_ex, ...)] is a
    new array; t_ex and p_ex are set to themselves. *)
Definition keep_ang (o : nat) (a : angle) : M (option pyval) := do r <- get_obj o ;; ret (r_ang r a).
Definition getvals (o : nat) (contributions : string) (inc : R) : M out :=
  do tex <- m_ang o TEx ;;
  do pex <- m_ang o PEx ;;
  do i <- add_arr (mk_nd (shp tex) (fun _ => Fin (inc * (PI / 180))%R)) ;;
  do vt <- keep_ang o TEx ;;
  do vp <- keep_ang o PEx ;;
  call_op (OSetGeometry o [("t_0", Some (PArr i)); ("t_ex", vt); ("p_ex", vp)]) ;;;
  cx_set_intq o contributions (call_op (OCalc o [])).

(** plot.py:806-815 _update up to the drawing: parameters from the sliders, then the values to show *)
Definition analyze3d_update (o : nat) (contributions : string) (sl : dict slider) (inc : R) : M out :=
  call_op (OUpdate o (slider_vals sl)) ;;; getvals o contributions inc.
