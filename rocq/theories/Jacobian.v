(** Derivatives: src/rt1_model/_calc.py:1143-1597. *)
From Verif Require Export World.
Open Scope nat_scope.

(** ** Kernels *)

(** np.exp(-self.tau / self._mu_0 - self.tau / self._mu_ex) *)
Definition k_atten2 (tau mu0 muex : nd xr) : res (nd xr) :=
  let* d1 := ndiv (nneg tau) mu0 in
  let* d2 := ndiv tau muex in
  let* s := nsub d1 d2 in
  Ok (nexp s).

(** _calc.py:1154-1165 _dvolume_dtau.  Note [1.0 / mu_ex ** (-1)]: the power binds tighter, so
    this is 1 / (1 / mu_ex). *)
Definition k_dvolume_dtau (i0 om mu0 muex tau v bsf : nd xr) : res (nd xr) :=
  let* x := nmul i0 om in
  let* s := nadd mu0 muex in
  let* q := ndiv mu0 s in
  let* x := nmul x q in
  let* a := ndiv (num 1) mu0 in
  let* b0 := ndiv (num 1) muex in
  let* b := ndiv (num 1) b0 in
  let* ab := nadd a b in
  let* e := k_atten2 tau mu0 muex in
  let* y := nmul ab e in
  let* x := nmul x y in
  let* dvdt := nmul x v in
  let* ob := nsub (num 1) bsf in
  nmul ob dvdt.

(** _calc.py:1177-1183 _dvolume_domega *)
Definition k_dvolume_domega (i0 mu0 muex tau v bsf : nd xr) : res (nd xr) :=
  let* x := nmul i0 mu0 in
  let* s := nadd mu0 muex in
  let* x := ndiv x s in
  let* e := k_atten tau mu0 muex in
  let* y := nsub (num 1) e in
  let* z := nmul x y in
  let* dvdo := nmul z v in
  let* ob := nsub (num 1) bsf in
  nmul ob dvdo.

(** _calc.py:1195-1207 _dvolume_dbsf *)
Definition k_dvolume_dbsf (i0 om mu0 muex tau v : nd xr) : res (nd xr) :=
  let* vol := k_vol i0 om mu0 muex tau v in Ok (nneg vol).

(** _calc.py:1233-1244 _dsurface_dtau *)
Definition k_dsurface_dtau (i0 mu0 muex tau srf norm bsf : nd xr) : res (nd xr) :=
  let* a := ndiv (num (-1)) mu0 in
  let* b := ndiv (num 1) muex in
  let* ab := nsub a b in
  let* x := nmul i0 ab in
  let* e := k_atten2 tau mu0 muex in
  let* x := nmul x e in
  let* x := nmul x mu0 in
  let* dsdt := nmul x srf in
  let* ob := nsub (num 1) bsf in
  let* n := nmul norm ob in
  nmul n dsdt.

(** _calc.py:1270-1284 _dsurface_dNormBRDF *)
Definition k_dsurface_dNormBRDF (i0 mu0 muex srf tau bsf : nd xr) : res (nd xr) :=
  let* ibs := k_bare i0 mu0 srf in
  let* e := k_atten tau mu0 muex in
  let* isurf := nmul e ibs in
  k_mix bsf isurf ibs.

(** np.ones_like *)
Definition ones_like (a : nd xr) : nd xr := mk_nd (shp a) (fun _ => Fin 1%R).

(** _calc.py:1300-1318 _dsurface_dbsf *)
Definition k_dsurface_dbsf (i0 mu0 muex srf tau norm t0 : nd xr) : res (nd xr) :=
  let* ibs := k_bare i0 mu0 srf in
  let* e := k_atten tau mu0 muex in
  let* isurf := nmul e ibs in
  let* isurf := nmul isurf (ones_like t0) in
  let* d := nsub ibs isurf in
  nmul norm d.

(** _calc.py:1382-1392: direct dependence of the volume part *)
Definition k_dvolume_direct (i0 om mu0 muex tau dv bsf : nd xr) : res (nd xr) :=
  let* x := nmul i0 om in
  let* x := nmul x mu0 in
  let* s := nadd mu0 muex in
  let* x := ndiv x s in
  let* e := k_atten tau mu0 muex in
  let* y := nsub (num 1) e in
  let* z := nmul x y in
  let* d := nmul z dv in
  let* ob := nsub (num 1) bsf in
  nmul ob d.

(** _calc.py:1453-1463: direct dependence of the surface part *)
Definition k_dsurface_direct (i0 mu0 muex dsrf tau norm bsf : nd xr) : res (nd xr) :=
  let* ibs := k_bare i0 mu0 dsrf in
  let* e := k_atten tau mu0 muex in
  let* dis := nmul e ibs in
  let* m := k_mix bsf dis ibs in
  nmul norm m.

(** ** Methods *)
Definition dvolume_dtau (o : nat) : M (nd xr) :=
  do i0 <- get_I0 o ;; do om <- param_val o Omega ;; do mu0 <- mu_0 o ;; do muex <- mu_ex o ;;
  do tau <- param_val o Tau ;; do v <- obj_scat_calc o WV ;; do bsf <- param_val o Bsf ;;
  lift (k_dvolume_dtau i0 om mu0 muex tau v bsf).
Definition dvolume_domega (o : nat) : M (nd xr) :=
  do i0 <- get_I0 o ;; do mu0 <- mu_0 o ;; do muex <- mu_ex o ;;
  do tau <- param_val o Tau ;; do v <- obj_scat_calc o WV ;; do bsf <- param_val o Bsf ;;
  lift (k_dvolume_domega i0 mu0 muex tau v bsf).
Definition dvolume_dbsf (o : nat) : M (nd xr) :=
  do i0 <- get_I0 o ;; do om <- param_val o Omega ;; do mu0 <- mu_0 o ;; do muex <- mu_ex o ;;
  do tau <- param_val o Tau ;; do v <- obj_scat_calc o WV ;;
  lift (k_dvolume_dbsf i0 om mu0 muex tau v).
Definition dvolume_dNormBRDF (o : nat) : M (nd xr) := ret (num 0).      (** _calc.py:1209-1221 *)
Definition dsurface_domega (o : nat) : M (nd xr) := ret (num 0).        (** _calc.py:1246-1258 *)
Definition dsurface_dtau (o : nat) : M (nd xr) :=
  do i0 <- get_I0 o ;; do mu0 <- mu_0 o ;; do muex <- mu_ex o ;; do tau <- param_val o Tau ;;
  do srf <- obj_scat_calc o WSRF ;; do norm <- param_val o NormBRDF ;; do bsf <- param_val o Bsf ;;
  lift (k_dsurface_dtau i0 mu0 muex tau srf norm bsf).
Definition dsurface_dNormBRDF (o : nat) : M (nd xr) :=
  do i0 <- get_I0 o ;; do mu0 <- mu_0 o ;; do srf <- obj_scat_calc o WSRF ;;
  do tau <- param_val o Tau ;; do muex <- mu_ex o ;; do bsf <- param_val o Bsf ;;
  lift (k_dsurface_dNormBRDF i0 mu0 muex srf tau bsf).
Definition dsurface_dbsf (o : nat) : M (nd xr) :=
  do i0 <- get_I0 o ;; do mu0 <- mu_0 o ;; do srf <- obj_scat_calc o WSRF ;;
  do tau <- param_val o Tau ;; do muex <- mu_ex o ;; do t0 <- m_ang o T0 ;;
  do norm <- param_val o NormBRDF ;;
  lift (k_dsurface_dbsf i0 mu0 muex srf tau norm t0).

(** call of a function compiled with the signature (theta_0, theta_ex, phi_0, phi_ex, params...) *)
Definition call_full (o : nat) (c : compiled) : M (nd xr) :=
  do t0 <- m_ang o T0 ;; do tex <- m_ang o TEx ;; do p0 <- m_ang o P0 ;; do pex <- m_ang o PEx ;;
  do r <- get_obj o ;;
  do kw <- gets (fun h => params_nd h r) ;;
  lift (call1 c [t0; tex; p0; pex] kw).

(** sp.diff result handed to _lambdify; a derivative that cannot be printed (sign) is not modelled
    beyond "it fails" *)
Definition lambdify_diff (o : nat) (d : option expr) : M compiled :=
  match d with
  | None => fail Unmodelled
  | Some e =>
      do r <- get_obj o ;;
      gets (fun h => lambdify (h_be h) (h_seng h) (angle_names ++ dkeys (r_params r)) [e])
  end.

(** _calc.py:1321-1346 _dparam_ddummy and _dparam_ddummy_lambda *)
Definition dparam_ddummy_lambda (o : nat) (p : pname) (key : string) : M compiled :=
  do r <- get_obj o ;;
  match r_def r p with
  | DStr e => lambdify_diff o (diff key e)
  | _ => lambdify_diff o (Some (ENum 1))
  end.

(** _calc.py:1394-1423 _d_volume_dummy_lambda, 1465-1494 _d_surface_dummy_lambda (both cached) *)
Definition d_dummy_lambda (o : nat) (x : which) (key : string) : M compiled :=
  do v <- cached (match x with WV => CDVol | WSRF => CDSrf end) (o, [key])
    (do r <- get_obj o ;;
     do s <- gets (fun h => scat_at h (scat_id r x)) ;;
     do c <- lambdify_diff o (diff key (phase_function s)) ;;
     ret (VFun (Some c))) ;;
  do f <- lift (as_fun v) ;;
  match f with Some c => ret c | None => fail Unmodelled end.

(** _calc.py:1348-1392 _d_volume_ddummy *)
Definition d_volume_ddummy (o : nat) (key : string) : M (nd xr) :=
  do st <- get_param_symbs o Tau ;;
  if mem key st then
    do c <- dparam_ddummy_lambda o Tau key ;; do inner <- call_full o c ;;
    do d <- dvolume_dtau o ;; lift (nmul d inner)
  else
  do so <- get_param_symbs o Omega ;;
  if mem key so then
    do c <- dparam_ddummy_lambda o Omega key ;; do inner <- call_full o c ;;
    do d <- dvolume_domega o ;; lift (nmul d inner)
  else
  do sb <- get_param_symbs o Bsf ;;
  if mem key sb then
    do c <- dparam_ddummy_lambda o Bsf key ;; do inner <- call_full o c ;;
    do d <- dvolume_dbsf o ;; lift (nmul d inner)
  else
    do i0 <- get_I0 o ;; do om <- param_val o Omega ;; do mu0 <- mu_0 o ;; do muex <- mu_ex o ;;
    do tau <- param_val o Tau ;;
    do c <- d_dummy_lambda o WV key ;; do dv <- call_full o c ;;
    do bsf <- param_val o Bsf ;;
    lift (k_dvolume_direct i0 om mu0 muex tau dv bsf).

(** _calc.py:1425-1463 _d_surface_ddummy *)
Definition d_surface_ddummy (o : nat) (key : string) : M (nd xr) :=
  do sn <- get_param_symbs o NormBRDF ;;
  if mem key sn then
    do c <- dparam_ddummy_lambda o NormBRDF key ;; do inner <- call_full o c ;;
    do d <- dsurface_dNormBRDF o ;; lift (nmul d inner)
  else
  do sb <- get_param_symbs o Bsf ;;
  if mem key sb then
    do c <- dparam_ddummy_lambda o Bsf key ;; do inner <- call_full o c ;;
    do d <- dsurface_dbsf o ;; lift (nmul d inner)
  else
    do i0 <- get_I0 o ;; do mu0 <- mu_0 o ;;
    do c <- d_dummy_lambda o WSRF key ;; do ds <- call_full o c ;;
    do tau <- param_val o Tau ;; do muex <- mu_ex o ;;
    do norm <- param_val o NormBRDF ;; do bsf <- param_val o Bsf ;;
    lift (k_dsurface_direct i0 mu0 muex ds tau norm bsf).

(** _calc.py:1542-1547 *)
Definition jac_norm (o : nat) : M (nd xr) :=
  do r <- get_obj o ;;
  if r_sig0 r && negb (r_dB r) then
    do mu0 <- mu_0 o ;; lift (nmul (num (4 * PI)) mu0)
  else if r_dB r then
    do s <- m_surface o ;; do v <- m_volume o ;;
    lift (let* sv := nadd s v in
          let* d := nmul (num (ln 10)) sv in
          ndiv (num 10) d)
  else ret (num 1).

(** _calc.py:1550-1568: one key *)
Definition jac_entry (o : nat) (norm : nd xr) (key : string) : M (nd xr) :=
  do r <- get_obj o ;;
  do sv <- (if String.eqb key "omega" then
              do s <- dsurface_domega o ;; do v <- dvolume_domega o ;; ret (s, v)
            else if String.eqb key "tau" then
              do s <- dsurface_dtau o ;; do v <- dvolume_dtau o ;; ret (s, v)
            else if String.eqb key "NormBRDF" then
              do s <- dsurface_dNormBRDF o ;; do v <- dvolume_dNormBRDF o ;; ret (s, v)
            else if String.eqb key "bsf" then
              do s <- dsurface_dbsf o ;; do v <- dvolume_dbsf o ;; ret (s, v)
            else if mem key (dkeys (r_params r)) then
              do s <- d_surface_ddummy o key ;; do v <- d_volume_ddummy o key ;; ret (s, v)
            else fail AssertionError) ;;
  lift (let* d := nadd (fst sv) (snd sv) in nmul d norm).

Fixpoint jac_entries (o : nat) (norm : nd xr) (keys : list string) : M (list (nd xr)) :=
  match keys with
  | [] => ret []
  | k :: keys' => do j <- jac_entry o norm k ;; do js <- jac_entries o norm keys' ;; ret (j :: js)
  end.

(** *** scipy.sparse layout (_calc.py:1571-1592) *)

(** indices in C order (row-major) *)
Definition c_order_idx (s : list nat) : list (list nat) := all_idx s.
Definition ravel (a : nd xr) : list xr := map (get a) (c_order_idx (shp a)).
Definition nsize (a : nd xr) : nat := length (c_order_idx (shp a)).

(** rows of block_diag(j.tolist()): 1-d: one 1x1 block per number; 2-d: one 1xm block per row.
    (higher dimensions: not modelled; a 0-d array has no list.) *)
Definition zeros (n : nat) : list xr := repeat (Fin 0%R) n.
Definition block_rows (j : nd xr) : res (list (list xr)) :=
  match shp j with
  | [] => Err TypeError
  | [n] => Ok (map (fun i => zeros i ++ [get j [i]] ++ zeros (n - i - 1)) (seq 0 n))
  | [m; n] => Ok (map (fun i => zeros (i * m) ++ map (fun k => get j [k; i]) (seq 0 m)
                                ++ zeros ((n - i - 1) * m)) (seq 0 n))
  | _ => Err Unmodelled
  end.

(** the rows contributed by one key: KeyError if it is not in param_dict (np.size(self.param_dict[key])) *)
Definition key_rows (h : heap) (r : rt1) (key : string) (j : nd xr) : res (list (list xr)) :=
  match dget (r_params r) key with
  | None => Err KeyError
  | Some v => let* p := sderef h v in
              if nsize p =? 1 then Ok [ravel j] else block_rows j
  end.

Fixpoint all_rows (h : heap) (r : rt1) (kj : list (string * nd xr)) : res (list (list xr)) :=
  match kj with
  | [] => Ok []
  | (k, j) :: kj' => let* a := key_rows h r k j in let* b := all_rows h r kj' in Ok (a ++ b)
  end.

(** vstack(jac_columns).T: ValueError if there is nothing to stack or the lengths differ.
    The result is given by its columns. *)
Definition vstack_T (rows : list (list xr)) : res (list (list xr)) :=
  match rows with
  | [] => Err ValueError
  | r :: rs => if forallb (fun x => length x =? length r) rs then Ok rows else Err ValueError
  end.

Inductive jac_out : Type := JList (l : list (nd xr)) | JMatrix (columns : list (list xr)).

(** _calc.py:1496-1597 jacobian *)
Definition api_jacobian (o : nat) (keys : list string) (format : string) : M jac_out :=
  do norm <- jac_norm o ;;
  do js <- jac_entries o norm keys ;;
  if String.eqb format "list" then ret (JList js)
  else if String.eqb format "scipy_least_squares" then
    do r <- get_obj o ;;
    do rows <- gets (fun h => let* rows := all_rows h r (combine keys js) in vstack_T rows) ;;
    ret (JMatrix rows)
  else fail TypeError.
