(** Scattering distribution functions: src/rt1_model/_scatter.py, volume.py, surface.py. *)
From Verif Require Export Expr.
Open Scope nat_scope.

(** generalisation parameters a = [a0, a1, a2] (volume.py:36-42, surface.py:37-43);
    entries are numbers or parsed strings.  A list of another length is rejected at construction. *)
Record atrip : Type := mk_a { a0 : expr; a1 : expr; a2 : expr }.

Definition atrip_eqb (a b : atrip) : bool :=
  expr_eqb (a0 a) (a0 b) && expr_eqb (a1 a) (a1 b) && expr_eqb (a2 a) (a2 b).

(** volume.py:37 and surface.py:38 *)
Definition a_vol : atrip := mk_a (ENum (-1)) (ENum 1) (ENum 1).
Definition a_srf : atrip := mk_a (ENum 1) (ENum 1) (ENum 1).

(** The concrete distribution classes.  [nc] is the ncoefs constructor argument (None if omitted;
    negative ints are not modelled), [t] the parsed asymmetry parameter, [i] the lobe power.
    [LinComb] is volume.LinComb / surface.LinComb (_scatter.py:197-246) with parsed weights and
    the object's own [a]. *)
Inductive scat : Type :=
| VIso (a : atrip)
| VRay (a : atrip)
| VHG (t : expr) (nc : option nat) (a : atrip)
| VHGRay (t : expr) (nc : option nat) (a : atrip)
| SIso (a : atrip)
| SCos (i : nat) (nc : option nat) (a : atrip)
| SHG (t : expr) (nc : option nat) (a : atrip)
| SHGn (t : expr) (nc : option nat) (a : atrip)
| LinComb (choices : list (expr * scat)) (a : atrip).

Definition scat_a (s : scat) : atrip :=
  match s with
  | VIso a | VRay a | VHG _ _ a | VHGRay _ _ a | SIso a | SCos _ _ a | SHG _ _ a | SHGn _ _ a
  | LinComb _ a => a
  end.

(** _scatter.py:39-81 calc_scattering_angle *)
Definition calc_scattering_angle (t_0 t_ex p_0 p_ex : expr) (a : atrip) : expr :=
  eadd (eadd (emul (emul (a0 a) (ecos t_0)) (ecos t_ex))
             (emul (emul (emul (emul (a1 a) (esin t_0)) (esin t_ex)) (ecos p_0)) (ecos p_ex)))
       (emul (emul (emul (emul (a2 a) (esin t_0)) (esin t_ex)) (esin p_0)) (esin p_ex)).

(** _scatter.py:25-37 scattering_angle_symbolic *)
Definition scattering_angle_symbolic (s : scat) : expr :=
  calc_scattering_angle (ESym "theta_0") (ESym "theta_ex") (ESym "phi_0") (ESym "phi_ex") (scat_a s).

Definition four_pi : expr := EMul (ENum 4) EPi.

(** 1 + t**2 - 2*t*x  (volume.py:167, surface.py:189, 249) *)
Definition hg_den (t x : expr) : expr :=
  esub (eadd (ENum 1) (epow t 2)) (emul (emul (ENum 2) t) x).

(** surface.py:228-243 (and 259-274): nadir_hemreflect of HG_nadirnorm *)
Definition nadir_hemreflect (t : expr) (a : atrip) : expr :=
  emul (ENum 4)
    (ediv
       (emul (esub (ENum 1) (epow t 2))
             (esub (esub (ENum 1) (emul t (eadd (emul (ENum (-1)) t) (a0 a))))
                   (ESqrt (emul (esub (eadd (ENum 1) (epow t 2)) (emul (emul (ENum 2) (a0 a)) t))
                                (eadd (ENum 1) (epow t 2))))))
       (emul (emul (emul (ENum 2) (epow (a0 a) 2)) (epow t 2))
             (ESqrt (esub (eadd (ENum 1) (epow t 2)) (emul (emul (ENum 2) (a0 a)) t))))).

(** phase_function of every class: volume.py:95-97, 121-123, 163-171, 205-224;
    surface.py:96-98, 144-155, 181-192, 225-254; _scatter.py:249-255 *)
Fixpoint phase_function (s : scat) : expr :=
  match s with
  | VIso _ => EDiv (ENum 1) four_pi
  | VRay a =>
      emul (EDiv (ENum 3) (EMul (ENum 16) EPi))
           (eadd (ENum 1) (epow (scattering_angle_symbolic s) 2))
  | VHG t _ a =>
      ediv (esub (ENum 1) (epow t 2))
           (EMul four_pi (EP32 (hg_den t (scattering_angle_symbolic s))))
  | VHGRay t _ a =>
      emul (EDiv (ENum 3) (EMul (ENum 8) EPi))
           (ediv (emul (emul (ediv (ENum 1) (eadd (ENum 2) (epow t 2)))
                             (eadd (ENum 1) (epow (scattering_angle_symbolic s) 2)))
                       (esub (ENum 1) (epow t 2)))
                 (EP32 (hg_den t (scattering_angle_symbolic s))))
  | SIso _ => EDiv (ENum 1) EPi
  | SCos i _ a =>
      let x := scattering_angle_symbolic s in
      emul (EDiv (ENum 1) EPi)
           (epow (ediv (emul x (eadd (ENum 1) (ESign x))) (ENum 2)) i)
  | SHG t _ a =>
      ediv (esub (ENum 1) (epow t 2))
           (EMul EPi (EP32 (hg_den t (scattering_angle_symbolic s))))
  | SHGn t _ a =>
      emul (ediv (ENum 1) (nadir_hemreflect t a))
           (ediv (esub (ENum 1) (epow t 2))
                 (EMul EPi (EP32 (hg_den t (scattering_angle_symbolic s)))))
  | LinComb choices _ =>
      fold_left (fun acc cw => eadd acc (emul (fst cw) (phase_function (snd cw)))) choices (ENum 0)
  end.

Fixpoint rmax (l : list (res nat)) : res nat :=   (** Python max([...]) of non-negative ints *)
  match l with
  | [] => Err ValueError
  | [r] => r
  | r :: l' => let* x := r in let* y := rmax l' in Ok (Nat.max x y)
  end.

Definition opt_ncoefs (nc : option nat) : res nat :=   (** _scatter.py:13-23 *)
  match nc with Some n => Ok n | None => Err AttributeError end.

(** ncoefs: _scatter.py:13-23, volume.py:82-86, 114-118, surface.py:83-87, _scatter.py:257-262 *)
Fixpoint ncoefs (s : scat) : res nat :=
  match s with
  | VIso _ | SIso _ => Ok 1
  | VRay _ => Ok 3
  | VHG _ nc _ | VHGRay _ nc _ | SCos _ nc _ | SHG _ nc _ | SHGn _ nc _ => opt_ncoefs nc
  | LinComb choices _ => rmax (map (fun cw => ncoefs (snd cw)) choices)
  end.

(** sympy.gamma at half integers m/2; [None] is the pole (complex infinity) at 0, -1, -2, ... *)
Fixpoint gamma_odd_pos (j : nat) : Q :=   (** gamma(j + 1/2) / sqrt(pi) *)
  match j with O => 1%Q | S j' => Qred ((inject_Z (Z.of_nat j') + (1#2)) * gamma_odd_pos j') end.
Fixpoint gamma_odd_neg (j : nat) : Q :=   (** gamma(1/2 - j) / sqrt(pi) *)
  match j with O => 1%Q | S j' => Qred (gamma_odd_neg j' / (- inject_Z (Z.of_nat j') - (1#2))) end.
Fixpoint qfact (j : nat) : Q :=
  match j with O => 1%Q | S j' => Qred (inject_Z (Z.of_nat (S j')) * qfact j') end.

Definition gamma_half (m : Z) : option expr :=
  if Z.even m then
    if (m <=? 0)%Z then None else Some (ENum (qfact (Z.to_nat (m / 2 - 1))))
  else if (0 <? m)%Z then Some (EMul (ENum (gamma_odd_pos (Z.to_nat ((m - 1) / 2)))) (ESqrt EPi))
  else Some (EMul (ENum (gamma_odd_neg (Z.to_nat ((1 - m) / 2)))) (ESqrt EPi)).

(** legendre_coefficients with the symbol n replaced by the integer k, which is what
    Sum(...).doit() does.  A parameter expression that itself contains a symbol called "n"
    is captured by this substitution.
    volume.py:88-92, 125-137, 173-178, 226-256; surface.py:89-93, 121-141, 194-198, 256-281;
    _scatter.py:264-269 (LinComb raises).  4.0/3.0 and 2.0/3.0 are taken as exact quotients. *)
Definition at_n (k : nat) (e : expr) : expr := subst "n" (enum_nat k) e.
Definition at_n_a (k : nat) (a : atrip) : atrip := mk_a (at_n k (a0 a)) (at_n k (a1 a)) (at_n k (a2 a)).
Definition kron (i k : nat) : expr := if i =? k then ENum 1 else ENum 0.
Definition qn (k : nat) : Q := inject_Z (Z.of_nat k).

Definition hgr_common (t : expr) (k : nat) : expr :=
  eadd (eadd (emul (ENum (Qred ((qn k + 2) * (qn k + 1) / (2 * qn k + 3)))) (epow t (k + 2)))
             (emul (ENum (Qred ((qn k + 1) * (qn k + 1) / (2 * qn k + 3)))) (epow t k)))
       (emul (ENum (Qred ((5 * qn k * qn k - 1) / (2 * qn k - 1)))) (epow t k)).

Definition legendre_coefficient (k : nat) (s : scat) : res expr :=
  match s with
  | VIso _ => Ok (emul (EDiv (ENum 1) four_pi) (kron 0 k))
  | VRay _ =>
      Ok (emul (EDiv (ENum 3) (EMul (ENum 16) EPi))
               (eadd (emul (ENum (4#3)) (kron 0 k)) (emul (ENum (2#3)) (kron 2 k))))
  | VHG t _ _ =>
      Ok (emul (emul (EDiv (ENum 1) four_pi) (ENum (Qred (2 * qn k + 1)))) (epow (at_n k t) k))
  | VHGRay t _ _ =>
      let tk := at_n k t in
      Ok (emul (ediv (EDiv (ENum 3) (EMul (ENum 8) EPi)) (eadd (ENum 2) (epow tk 2)))
               (if k <? 2 then hgr_common tk k
                else eadd (emul (ENum (Qred (qn k * (qn k - 1) / (2 * qn k - 1)))) (epow tk (k - 2)))
                          (hgr_common tk k)))
  | SIso _ => Ok (emul (EDiv (ENum 1) EPi) (kron 0 k))
  | SCos i _ _ =>
      let num := EMul (ENum (Qred ((1 / (4 * qpow 2 i)) * (1 + 2 * qn k) * qfact i))) (ESqrt EPi) in
      Ok (match gamma_half (2 - Z.of_nat k + Z.of_nat i), gamma_half (3 + Z.of_nat k + Z.of_nat i) with
          | Some g1, Some g2 => EMul (EDiv (ENum 1) EPi) (EDiv num (EMul g1 g2))
          | _, _ => ENum 0
          end)
  | SHG t _ _ =>
      Ok (emul (emul (EDiv (ENum 1) EPi) (ENum (Qred (2 * qn k + 1)))) (epow (at_n k t) k))
  | SHGn t _ a =>
      Ok (emul (ediv (ENum 1) (nadir_hemreflect (at_n k t) (at_n_a k a)))
               (emul (emul (EDiv (ENum 1) EPi) (ENum (Qred (2 * qn k + 1)))) (epow (at_n k t) k)))
  | LinComb _ _ => Err NotImplementedError
  end.

(** _a_groups (_scatter.py:239-243): choices grouped by [a], groups in order of first occurrence *)
Fixpoint group_insert (a : atrip) (c : expr * scat) (gs : list (atrip * list (expr * scat)))
  : list (atrip * list (expr * scat)) :=
  match gs with
  | [] => [(a, [c])]
  | (b, cs) :: gs' => if atrip_eqb b a then (b, cs ++ [c]) :: gs' else (b, cs) :: group_insert a c gs'
  end.
Definition a_groups (choices : list (expr * scat)) : list (atrip * list (expr * scat)) :=
  fold_left (fun gs c => group_insert (scat_a (snd c)) c gs) choices [].

(** Sum of frac * legendre_coefficients over one a-group, at n = k (_scatter.py:281-283) *)
Definition group_coef (k : nat) (cs : list (expr * scat)) : res expr :=
  fold_left (fun acc c =>
     let* x := acc in let* l := legendre_coefficient k (snd c) in
     Ok (eadd x (emul (at_n k (fst c)) l))) cs (Ok (ENum 0)).

Section Expansion.
  Variables t_0 t_ex p_0 p_ex : expr.

  (** sp.Sum(coef(n) * legendre(n, scattering angle), (n, 0, nc - 1)).doit() *)
  Definition leg_sum (coef : nat -> res expr) (a : atrip) (nc : nat) : res expr :=
    fold_left (fun acc k =>
      let* x := acc in let* c := coef k in
      Ok (eadd x (emul c (sp_legendre k (calc_scattering_angle t_0 t_ex p_0 p_ex (at_n_a k a))))))
      (seq 0 nc) (Ok (ENum 0)).

  (** legendre_expansion(...).doit(): _scatter.py:107-147 and, for LinComb, 271-291.
      ([.doit()] on the int 0 of an empty LinComb is an AttributeError.) *)
  Definition legendre_expansion (s : scat) : res expr :=
    match s with
    | LinComb choices _ =>
        match a_groups choices with
        | [] => Err AttributeError
        | gs =>
          fold_left (fun acc g =>
            let* x := acc in
            let* nc := rmax (map (fun c => ncoefs (snd c)) (snd g)) in
            let* _ := group_coef 0 (snd g) in
            let* e := leg_sum (fun k => group_coef k (snd g)) (fst g) nc in
            Ok (eadd x e)) gs (Ok (ENum 0))
        end
    | _ =>
        let* nc := ncoefs s in
        if nc =? 0 then Err AssertionError
        else leg_sum (fun k => legendre_coefficient k s) (scat_a s) nc
    end.
End Expansion.

(** Constructor argument checks.
    volume.py:155-160, 197-202; surface.py:112-119, 173-178, 217-222: [t]/[i] must be given;
    volume.py:42, surface.py:43: [a] must have three entries. *)
Definition mk_atrip (dflt : atrip) (a : option (list expr)) : res atrip :=
  match a with
  | None => Ok dflt
  | Some [x; y; z] => Ok (mk_a x y z)
  | Some _ => Err AssertionError
  end.
Definition new_HG (volume : bool) (t : option expr) (nc : option nat) (a : option (list expr)) : res scat :=
  let* av := mk_atrip (if volume then a_vol else a_srf) a in
  match t with
  | None => Err AssertionError
  | Some t => Ok (if volume then VHG t nc av else SHG t nc av)
  end.
Definition new_CosineLobe (i : option Z) (nc : option nat) (a : option (list expr)) : res scat :=
  let* av := mk_atrip a_srf a in
  match i with
  | None => Err AssertionError
  | Some i => if (0 <=? i)%Z then Ok (SCos (Z.to_nat i) nc av) else Err AssertionError
  end.
