(** The numerical kernels of src/rt1_model/_calc.py as functions on arrays.

    Each kernel takes the arrays that the Python method reads from the object (mu_0, tau, ...)
    and performs the method's array arithmetic, operation by operation, in the same association.
    Simplification: the method reads all its inputs first and computes afterwards, so if both a read
    and an earlier broadcast fail, the model reports the read's exception. *)
From Verif Require Export Lambdify.
Open Scope nat_scope.

(** _calc.py:608-616 / 1270-1280 / 1300-1310: I_bs = I0 * mu_0 * SRF.calc(...) *)
Definition k_bare (i0 mu0 srf : nd xr) : res (nd xr) :=
  let* x := nmul i0 mu0 in nmul x srf.

(** exp(-(tau / mu_0) - (tau / mu_ex)) *)
Definition k_atten (tau mu0 muex : nd xr) : res (nd xr) :=
  let* d1 := ndiv tau mu0 in
  let* d2 := ndiv tau muex in
  let* s := nsub (nneg d1) d2 in
  Ok (nexp s).

(** (1.0 - bsf) * a + bsf * b *)
Definition k_mix (bsf a b : nd xr) : res (nd xr) :=
  let* om := nsub (num 1) bsf in
  let* x := nmul om a in
  let* y := nmul bsf b in
  nadd x y.

(** _calc.py:608-624 _surface *)
Definition k_surface (i0 mu0 muex srf tau norm bsf : nd xr) : res (nd xr) :=
  let* ibs := k_bare i0 mu0 srf in
  let* e := k_atten tau mu0 muex in
  let* isurf := nmul e ibs in
  let* m := k_mix bsf isurf ibs in
  nmul norm m.

(** _calc.py:651-661: (I0 * omega * mu_0 / (mu_0 + mu_ex)) * (1.0 - exp(...)) * V.calc(...) *)
Definition k_vol (i0 om mu0 muex tau v : nd xr) : res (nd xr) :=
  let* x := nmul i0 om in
  let* x := nmul x mu0 in
  let* s := nadd mu0 muex in
  let* x := ndiv x s in
  let* e := k_atten tau mu0 muex in
  let* y := nsub (num 1) e in
  let* z := nmul x y in
  nmul z v.

(** _calc.py:649-663 _volume *)
Definition k_volume (i0 om mu0 muex tau v bsf : nd xr) : res (nd xr) :=
  let* vol := k_vol i0 om mu0 muex tau v in
  let* ob := nsub (num 1) bsf in
  nmul ob vol.

(** _calc.py:799-813 _mu_0_x / _mu_ex_x: powers mu**(n+1), n < nmax, on a new axis 0 *)
Definition k_mux (nmax : nat) (mu : nd xr) : res (nd xr) :=
  stack (map (fun n => npow mu (n + 1)) (seq 0 nmax)).

(** _calc.py:1069-1073 hlp1 *)
Definition k_hlp1 (mu tau : nd xr) : res (nd xr) :=
  let* q := ndiv (nneg tau) mu in
  let* om := nsub (num 1) mu in
  let* r := ndiv mu om in
  let* x := nmul (nexp q) (nlog r) in
  let* x := nsub x (nexpi (nneg tau)) in
  let* tm := ndiv tau mu in
  let* d := nsub tm tau in
  let* y := nmul (nexp q) (nexpi d) in
  nadd x y.

(** _calc.py:1076-1078 innerfunc(k) = mu ** (-k) * (expn(k + 1.0, tau) - exp(-tau / mu) / k) *)
Definition k_inner (mu tau : nd xr) (k : nat) : res (nd xr) :=
  let m := map1 (fun x => xdiv (Fin 1%R) (xpow x k)) mu in
  let* q := ndiv (nneg tau) mu in
  let* e := ndiv (nexp q) (num (INR k)) in
  let* d := nsub (nexpn (k + 1) tau) e in
  nmul m d.

(** sum(innerfunc(k) for k in range(1, n + 2)): starts from the int 0 *)
Definition k_inner_sum (mu tau : nd xr) (n : nat) : res (nd xr) :=
  fold_left (fun acc k => let* a := acc in let* x := k_inner mu tau k in nadd a x)
            (seq 1 (n + 1)) (Ok (num 0)).

(** _calc.py:1067-1087 _S2_mu *)
Definition k_S2 (nmax : nat) (mu tau : nd xr) : res (nd xr) :=
  let* h := k_hlp1 mu tau in
  let* rows := rmap (k_inner_sum mu tau) (seq 0 nmax) in
  let* s := stack rows in
  nadd s h.

(** _calc.py:1110-1114 (and 1137-1141): combine fn values, cosine powers and S2 *)
Definition k_Fint (nmax : nat) (fns : list (nd xr)) (mux mu tau : nd xr) : res (nd xr) :=
  let* fn := broadcast_arrays (map atleast_1d fns) in
  let* s2 := k_S2 nmax mu tau in
  let* multip := nmul mux s2 in
  let* f := stack fn in
  let* p := nmul f multip in
  Ok (sum_axis0 p).

(** _calc.py:693-703 _interaction, given Fint1 and Fint2 *)
Definition k_interaction (i0 mu0 muex om tau norm bsf f1 f2 : nd xr) : res (nd xr) :=
  let* x := nmul i0 mu0 in
  let* x := nmul x om in
  let* q1 := ndiv (nneg tau) muex in
  let* a := nmul (nexp q1) f1 in
  let* q2 := ndiv (nneg tau) mu0 in
  let* b := nmul (nexp q2) f2 in
  let* ab := nadd a b in
  let* iint := nmul x ab in
  let* ob := nsub (num 1) bsf in
  let* c := nmul norm ob in
  nmul c iint.

(** _calc.py:714-730 _convert_sig0_db *)
Definition k_convert (sig0 dB : bool) (i0 mu0 val : nd xr) : res (nd xr) :=
  let* signorm := if sig0 then let* x := nmul (num (4 * PI)) mu0 in ndiv x i0 else Ok (num 1) in
  let* r := nmul val signorm in
  if dB then nmul (num 10) (nlog10 r) else Ok r.

(** np.full_like(a, 0.0) *)
Definition zeros_like (a : nd xr) : nd xr := mk_nd (shp a) (fun _ => Fin 0%R).

(** _calc.py:539-549: NaNs of Iint are replaced by 0 if there are some and (after broadcasting)
    they sit exactly where tau == 0 *)
Definition k_fix_nan (iint tau : nd xr) : res (nd xr) :=
  let wherenan := map1 xis_nan iint in
  if nd_any wherenan then
    let* same := map2 Bool.eqb wherenan (map1 xis_zero tau) in
    if nd_all same
    then Ok (map1 (fun x => if xis_nan x then Fin 0%R else x) iint)
    else Ok iint
  else Ok iint.

(** _calc.py:551-558: rows (total, surface, volume[, interaction]) *)
Definition k_rows (isurf ivol : nd xr) (iint : option (nd xr)) : res (nd xr) :=
  let* sv := nadd isurf ivol in
  match iint with
  | Some i => let* t := nadd sv i in stack [t; isurf; ivol; i]
  | None => stack [sv; isurf; ivol]
  end.
