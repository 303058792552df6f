(** hemreflect (plot.py:253-393): the array it computes.
    Not modelled: the figure (plot.py:370-393) and the printed warning (plot.py:364-366).
    External: scipy.integrate.simps, numpy.linspace, numpy.arange (exact arithmetic). *)
From Verif Require Export Plot.
Open Scope string_scope. Open Scope nat_scope. Open Scope list_scope.

(** np.linspace(a, b, n) *)
Definition row_linspace (n : nat) (a b : R) : nd xr :=
  mk_nd [n] (fun i => Fin (a + INR (hd 0%nat i) * ((b - a) / INR (n - 1)))%R).

(** np.arange(a, b, s): the numbers a, a + s, ... below b; ceil((b - a) / s) of them (s = 0 raises, not modelled further) *)
Definition ceil_nat (x : R) : nat := Z.to_nat (1 - up (- x)).
Definition arange (a b s : R) : res (list R) :=
  if Req_EM_T s 0 then Err Unmodelled else Ok (map (fun k => a + INR k * s)%R (seq 0 (ceil_nat ((b - a) / s)))).
(** np.deg2rad *)
Definition deg2rad (x : R) : R := (x * (PI / 180))%R.

(** scipy.integrate.simps on n equidistant points at distance h ([basicX] = scipy's _basic_simpson):
    odd n: composite Simpson rule.  Even n: scipy < 1.11 ([old], even='avg') averages the two ways of
    using a trapezoid on the first / last interval; scipy >= 1.11 adds Cartwright's correction for the
    last interval (and a trapezoid for two points). *)
Fixpoint basicX (h : R) (g : nat -> xr) (start n : nat) : xr :=
  match n with
  | O => Fin 0
  | S m => xadd (basicX h g start m)
      (xmul (Fin (h / 3)) (xadd (xadd (g (start + 2 * m)) (xmul (Fin 4) (g (start + 2 * m + 1)))) (g (start + 2 * m + 2))))
  end.
Definition trapX (h : R) (g : nat -> xr) (k : nat) : xr := xmul (Fin (h / 2)) (xadd (g (S k)) (g k)).
Definition simpsX (old : bool) (n : nat) (h : R) (g : nat -> xr) : xr :=
  let m := Nat.div2 (n - 1) in
  if Nat.odd n then basicX h g 0 m
  else if orb old (n =? 2) then
    xadd (xmul (xadd (trapX h g (n - 2)) (trapX h g 0)) (Fin (1 / 2)))
         (xmul (xadd (basicX h g 0 m) (basicX h g 1 m)) (Fin (1 / 2)))
  else xadd (basicX h g 0 m)
    (xmul (Fin h) (xsub (xadd (xmul (Fin (5 / 12)) (g (n - 1))) (xmul (Fin (2 / 3)) (g (n - 2)))) (xmul (Fin (1 / 12)) (g (n - 3))))).
(** simps(z, x) along the last axis, x the n points of np.linspace(0, len, n): ValueError if the axis has another length
    (no point at all, or no axis: not modelled, does not occur) *)
Definition simps_last (old : bool) (n : nat) (len : R) (z : nd xr) : res (nd xr) :=
  match shp z with
  | d :: s => if n =? 0 then Err Unmodelled else if d =? n then Ok (mk_nd s (fun i => simpsX old n (len / INR (n - 1)) (fun k => get z (k :: i)))) else Err ValueError
  | [] => Err Unmodelled
  end.

(** plot.py:351-360: one incidence angle *)
Definition nsin := map1 xsin.
Definition hem_weight (n : nat) : res (nd xr) :=
  let x := col_linspace n 0 (PI / 2) in nmul (nsin x) (ncos x).
Definition hem_one (old : bool) (sid : nat) (p0 : R) (n : nat) (kw : dict (nd xr)) (th : R) : M (nd xr) :=
  do r <- call_op (OScatCalc sid (num th) (col_linspace n 0 (PI / 2)) (num p0) (row_linspace n 0 (2 * PI)) kw) ;;
  match r with
  | RetArr b =>
      lift (let* w := hem_weight n in let* z := nmul w b in
            let* s := simps_last old n (2 * PI) z in simps_last old n (PI / 2) s)
  | _ => fail Unmodelled
  end.
(** plot.py:346-360: the loop *)
Fixpoint hem_all (old : bool) (sid : nat) (p0 : R) (n : nat) (kw : dict (nd xr)) (ths : list R) : M (list (nd xr)) :=
  match ths with
  | [] => ret []
  | th :: ths' => do a <- hem_one old sid p0 n kw th ;; do l <- hem_all old sid p0 n kw ths' ;; ret (a :: l)
  end.
(** plot.py:330-362 *)
Definition hem_run (old : bool) (sid : nat) (norm : nd xr) (p0 tmin tmax tstep : R) (n : nat) (kw : dict (nd xr)) : M (nd xr) :=
  do inc <- lift (arange tmin tmax tstep) ;;
  do l <- hem_all old sid p0 n kw (map deg2rad inc) ;;
  lift (let* sol := match l with [] => Ok (mk_nd [0] (fun _ => NaN)) | _ => stack l end in nmul sol norm).
(** plot.py:324-326 hemreflect(SRF=...) *)
Definition hemreflect_SRF (old : bool) (sid : nat) (p0 tmin tmax tstep : R) (n : nat) (kw : dict (nd xr)) : M (nd xr) :=
  hem_run old sid (match dget kw "NormBRDF" with Some a => a | None => num 1 end) p0 tmin tmax tstep n kw.
(** plot.py:315-323 hemreflect(R=...): R.NormBRDF is an array, which has no free_symbols, so the except branch is always taken *)
Definition hemreflect_R (old : bool) (o : nat) (p0 tmin tmax tstep : R) (n : nat) (kw : dict (nd xr)) : M (nd xr) :=
  do sid <- gets (fun h => let* r := obj h o in Ok (scat_id r WSRF)) ;;
  do _ <- catch (call_op (OReadParam o NormBRDF)) (fun _ => ret RetNone) ;;
  do x <- call_op (OReadParam o NormBRDF) ;;
  match x with RetArr norm => hem_run old sid norm p0 tmin tmax tstep n kw | _ => fail Unmodelled end.
