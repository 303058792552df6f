(** The symbolic pipeline of the interaction term: src/rt1_model/_calc.py:875-1065. *)
From Verif Require Export Scatter.
Open Scope nat_scope.

(** The four geometry slots [_geom_ang_symbs] (theta_0, theta_ex, phi_0, phi_ex). *)
Record angs : Type := mk_angs { g_t0 : expr; g_tex : expr; g_p0 : expr; g_pex : expr }.

(** _calc.py:981-1001 _cosintegral *)
Fixpoint binom (n k : nat) : Z :=
  match n, k with
  | _, O => 1%Z
  | O, S _ => 0%Z
  | S n', S k' => (binom n' k' + binom n' k)%Z
  end.
Definition cosintegral (i : nat) : Q :=
  if Nat.even i then Qred (inject_Z (binom i (Nat.div2 i)) / qpow 2 i) else 0%Q.

Definition scale_mono (c : expr) (m : mono) : mono :=
  mk_mono (emul c (mc m)) (msp m) (mcp m) (mst m) (mct m).

(** self._expand((1.0 - cos(x)**2) ** Rational(i, 2)) for even i, as a polynomial in the atom
    given by [atom] *)
Definition one_minus_sq (atom : mono) (i : nat) : poly :=
  ppow [mk_mono (ENum 1) 0 0 0 0; scale_mono (ENum (-1)) (mmul atom atom)] (Nat.div2 i).
Definition atom_cp : mono := mk_mono (ENum 1) 0 1 0 0.
Definition atom_ct : mono := mk_mono (ENum 1) 0 0 0 1.

(** One term of expr.xreplace(replacements1) (_calc.py:1037-1053), M = SRF.ncoefs + V.ncoefs.
    xreplace works top-down: a power sin(phi_s)**i outside the listed range is not a key, but its
    argument sin(phi_s) is (i = 1), so it becomes 0.0**i = 0. *)
Definition repl_sin_phi (M : nat) (m : mono) : poly :=
  let rest := mk_mono (mc m) 0 (mcp m) (mst m) (mct m) in
  if msp m =? 0 then [rest]
  else if M <? msp m then (if M =? 0 then [m] else [])
  else if Nat.odd (msp m) then []
  else pmul [rest] (one_minus_sq atom_cp (msp m)).

(** One term of res.xreplace(replacements3) (_calc.py:1059-1064) *)
Definition repl_cos_phi (M : nat) (m : mono) : poly :=
  if mcp m =? 0 then [m]
  else if M <? mcp m then (if M =? 0 then [m] else [])
  else if Qeq_bool (cosintegral (mcp m)) 0 then []
  else [mk_mono (emul (mc m) (ENum (cosintegral (mcp m)))) (msp m) 0 (mst m) (mct m)].

(** _calc.py:1003-1065 _integrate_0_2pi_phis *)
Definition integrate_0_2pi_phis (M : nat) (p : poly) : poly :=
  flat_map (repl_cos_phi M) (flat_map (repl_sin_phi M) p).

(** One term of expr.xreplace(replacements) for sin(theta_s) (_calc.py:968-977): even powers
    i with 1 <= i < SRF.ncoefs + V.ncoefs - 1 are rewritten, everything else stays. *)
Definition repl_sin_theta (M : nat) (m : mono) : poly :=
  if (0 <? mst m) && Nat.even (mst m) && (mst m <? M - 1)
  then pmul [mk_mono (mc m) (msp m) (mcp m) 0 (mct m)] (one_minus_sq atom_ct (mst m))
  else [m].

(** _calc.py:919-979 _calc_interaction_expansion *)
Definition calc_interaction_expansion (V SRF : scat) (g : angs) : res poly :=
  let* brdfexp := legendre_expansion (ESym "theta_s") (g_tex g) (ESym "phi_s")
                    (eadd (g_pex g) EPi) SRF in
  let* volexp := legendre_expansion (esub EPi (g_t0 g)) (ESym "theta_s") (g_p0 g)
                    (ESym "phi_s") V in
  let fPoly := expand (emul (emul (EMul (ENum 2) EPi) volexp) brdfexp) in
  let* nV := ncoefs V in
  let* nS := ncoefs SRF in
  let M := nS + nV in
  Ok (flat_map (repl_sin_theta M) (integrate_0_2pi_phis M fPoly)).

(** _calc.py:875-917 _extract_coefficients.
    f_0: every cos(theta_s) becomes 0.  f_1: powers 2..N_fn become 0, cos(theta_s) becomes 1, minus f_0.
    f_n: cos(theta_s)**n becomes 1, then the other powers 0, minus f_0. *)
Definition drop_ct (m : mono) : mono := mk_mono (mc m) (msp m) (mcp m) (mst m) 0.
Definition repl0 (p : poly) : poly := filter (fun m => mct m =? 0) p.
Definition repl1 (N : nat) (p : poly) : poly :=
  map drop_ct (filter (fun m => (mct m <=? 1) || (N <? mct m)) p).
Definition repln (n : nat) (p : poly) : poly :=
  map drop_ct (filter (fun m => (mct m =? 0) || (mct m =? n)) p).

Definition extract_coefficients (N : nat) (p : poly) : list expr :=
  let f0 := poly_expr (repl0 p) in
  [f0; esub (poly_expr (repl1 N p)) f0]
  ++ map (fun n => esub (poly_expr (repln n p)) f0) (seq 2 (N - 2)).

(** the fn-coefficients (_calc.py:832-840) *)
Definition calc_fn (V SRF : scat) (g : angs) : res (list expr) :=
  let* p := calc_interaction_expansion V SRF g in
  let* nV := ncoefs V in
  let* nS := ncoefs SRF in
  Ok (extract_coefficients (nS + nV - 1) p).
