(** Symbolic expressions: the fragment of sympy / symengine that the code uses.

    This file models the *libraries* (sympy/symengine), as far as the code relies on them:
    construction with automatic numeric simplification, substitution, free symbols, [expand]
    into a sum of monomials, [diff], the Legendre polynomials, evaluation.
    All Python numbers are rationals, so numeric literals are [Q]; pi stays symbolic. *)
From Verif Require Export NdArray.
From Coq Require Export Qreals.
Open Scope nat_scope.

Inductive expr : Type :=
| ENum (q : Q)
| EPi
| ESym (s : string)
| EAdd (a b : expr)
| EMul (a b : expr)
| EDiv (a b : expr)
| EPow (a : expr) (n : nat)      (** x**n, also x**2.0 *)
| EP32 (a : expr)                (** x**1.5 *)
| ESqrt (a : expr)
| ESin (a : expr)
| ECos (a : expr)
| EExp (a : expr)
| ELog (a : expr)
| ESign (a : expr).

(** ** Evaluation *)

(** numpy evaluation of a lambdified expression on one set of (extended real) values *)
Fixpoint evalX (env : string -> xr) (e : expr) : xr :=
  match e with
  | ENum q => Fin (Q2R q)
  | EPi => Fin PI
  | ESym s => env s
  | EAdd a b => xadd (evalX env a) (evalX env b)
  | EMul a b => xmul (evalX env a) (evalX env b)
  | EDiv a b => xdiv (evalX env a) (evalX env b)
  | EPow a n => xpow (evalX env a) n
  | EP32 a => xpow32 (evalX env a)
  | ESqrt a => xsqrt (evalX env a)
  | ESin a => xsin (evalX env a)
  | ECos a => xcos (evalX env a)
  | EExp a => xexp (evalX env a)
  | ELog a => xlog (evalX env a)
  | ESign a => xsign (evalX env a)
  end.

(** mathematical value of an expression (meaningful where [wd] holds) *)
Fixpoint evalR (env : string -> R) (e : expr) : R :=
  match e with
  | ENum q => Q2R q
  | EPi => PI
  | ESym s => env s
  | EAdd a b => (evalR env a + evalR env b)%R
  | EMul a b => (evalR env a * evalR env b)%R
  | EDiv a b => (evalR env a / evalR env b)%R
  | EPow a n => (evalR env a ^ n)%R
  | EP32 a => (evalR env a * sqrt (evalR env a))%R
  | ESqrt a => sqrt (evalR env a)
  | ESin a => sin (evalR env a)
  | ECos a => cos (evalR env a)
  | EExp a => exp (evalR env a)
  | ELog a => ln (evalR env a)
  | ESign a => IZR (rsign (evalR env a))
  end.

(** no division by zero, no root of a negative number, no logarithm of a number <= 0 *)
Fixpoint wd (env : string -> R) (e : expr) : Prop :=
  match e with
  | ENum _ | EPi | ESym _ => True
  | EAdd a b | EMul a b => wd env a /\ wd env b
  | EDiv a b => wd env a /\ wd env b /\ evalR env b <> 0%R
  | EPow a _ | ESin a | ECos a | EExp a | ESign a => wd env a
  | EP32 a | ESqrt a => wd env a /\ (0 <= evalR env a)%R
  | ELog a => wd env a /\ (0 < evalR env a)%R
  end.

(** ** Symbols *)
Fixpoint syms (e : expr) : list string :=
  match e with
  | ENum _ | EPi => []
  | ESym s => [s]
  | EAdd a b | EMul a b | EDiv a b => syms a ++ syms b
  | EPow a _ | EP32 a | ESqrt a | ESin a | ECos a | EExp a | ELog a | ESign a => syms a
  end.

(** [expr.free_symbols] (a set: no duplicates; the order carries no information) *)
Fixpoint dedup (l : list string) : list string :=
  match l with [] => [] | x :: l' => if mem x l' then dedup l' else x :: dedup l' end.
Definition free_syms (e : expr) : list string := dedup (syms e).

Fixpoint subst (x : string) (v : expr) (e : expr) : expr :=
  match e with
  | ENum _ | EPi => e
  | ESym s => if String.eqb s x then v else e
  | EAdd a b => EAdd (subst x v a) (subst x v b)
  | EMul a b => EMul (subst x v a) (subst x v b)
  | EDiv a b => EDiv (subst x v a) (subst x v b)
  | EPow a n => EPow (subst x v a) n
  | EP32 a => EP32 (subst x v a)
  | ESqrt a => ESqrt (subst x v a)
  | ESin a => ESin (subst x v a)
  | ECos a => ECos (subst x v a)
  | EExp a => EExp (subst x v a)
  | ELog a => ELog (subst x v a)
  | ESign a => ESign (subst x v a)
  end.

(** structural equality up to numeric equality of literals (Python [==]) *)
Fixpoint expr_eqb (a b : expr) : bool :=
  match a, b with
  | ENum p, ENum q => Qeq_bool p q
  | EPi, EPi => true
  | ESym s, ESym t => String.eqb s t
  | EAdd a1 a2, EAdd b1 b2 | EMul a1 a2, EMul b1 b2 | EDiv a1 a2, EDiv b1 b2 =>
      expr_eqb a1 b1 && expr_eqb a2 b2
  | EPow a n, EPow b m => expr_eqb a b && (n =? m)
  | EP32 a, EP32 b | ESqrt a, ESqrt b | ESin a, ESin b | ECos a, ECos b
  | EExp a, EExp b | ELog a, ELog b | ESign a, ESign b => expr_eqb a b
  | _, _ => false
  end.

(** ** Construction with the numeric simplifications of Add/Mul/Pow
    (0+x, x+0, 0*x, 1*x, numbers folded, x**0, x**1).  Only numeric values are simplified;
    collection of like terms is not modelled (it does not change values). *)
Definition eadd (a b : expr) : expr :=
  match a, b with
  | ENum p, ENum q => ENum (Qred (p + q))
  | ENum p, _ => if Qeq_bool p 0 then b else EAdd a b
  | _, ENum q => if Qeq_bool q 0 then a else EAdd a b
  | _, _ => EAdd a b
  end.

Definition emul (a b : expr) : expr :=
  match a, b with
  | ENum p, ENum q => ENum (Qred (p * q))
  | ENum p, _ => if Qeq_bool p 0 then ENum 0 else if Qeq_bool p 1 then b else EMul a b
  | _, ENum q => if Qeq_bool q 0 then ENum 0 else if Qeq_bool q 1 then a else EMul a b
  | _, _ => EMul a b
  end.

Fixpoint qpow (q : Q) (n : nat) : Q := match n with O => 1%Q | S n' => Qred (q * qpow q n') end.

Definition epow (a : expr) (n : nat) : expr :=
  match n with
  | O => ENum 1
  | S O => a
  | _ => match a with ENum q => ENum (qpow q n) | _ => EPow a n end
  end.

(** a/b = a*b**-1; a numeric zero numerator vanishes, numbers are folded (1/0 is left alone) *)
Definition ediv (a b : expr) : expr :=
  match a, b with
  | ENum p, ENum q => if Qeq_bool q 0 then EDiv a b else ENum (Qred (p / q))
  | ENum p, _ => if Qeq_bool p 0 then ENum 0 else EDiv a b
  | _, ENum q => if Qeq_bool q 1 then a else EDiv a b
  | _, _ => EDiv a b
  end.

(** sin(0) = 0 and cos(0) = 1 are evaluated *)
Definition esin (a : expr) : expr :=
  match a with ENum q => if Qeq_bool q 0 then ENum 0 else ESin a | _ => ESin a end.
Definition ecos (a : expr) : expr :=
  match a with ENum q => if Qeq_bool q 0 then ENum 1 else ECos a | _ => ECos a end.

Definition enum_nat (n : nat) : expr := ENum (inject_Z (Z.of_nat n)).
Definition esub (a b : expr) : expr := eadd a (emul (ENum (-1)) b).
Definition esum (l : list expr) : expr := fold_right eadd (ENum 0) l.

(** ** expand: a sum of monomials in sin/cos of phi_s and theta_s.

    Only these four atoms matter to the code (everything else is an opaque coefficient that
    stays where it is): after [expand] each term is coefficient * product of powers of them. *)
Record mono : Type := mk_mono { mc : expr; msp : nat; mcp : nat; mst : nat; mct : nat }.
Definition poly := list mono.

Definition mmul (a b : mono) : mono :=
  mk_mono (emul (mc a) (mc b)) (msp a + msp b) (mcp a + mcp b) (mst a + mst b) (mct a + mct b).
Definition pmul (p q : poly) : poly := flat_map (fun a => map (mmul a) q) p.
Definition pone : poly := [mk_mono (ENum 1) 0 0 0 0].
Fixpoint ppow (p : poly) (n : nat) : poly :=
  match n with O => pone | S n' => pmul p (ppow p n') end.

Definition pconst (e : expr) : poly := [mk_mono e 0 0 0 0].

Fixpoint expand (e : expr) : poly :=
  match e with
  | ENum q => if Qeq_bool q 0 then [] else pconst e
  | EAdd a b => expand a ++ expand b
  | EMul a b => pmul (expand a) (expand b)
  | EDiv a b => pmul (expand a) (pconst (EDiv (ENum 1) b))
  | EPow a n => ppow (expand a) n
  | ESin (ESym s) =>
      if String.eqb s "phi_s" then [mk_mono (ENum 1) 1 0 0 0]
      else if String.eqb s "theta_s" then [mk_mono (ENum 1) 0 0 1 0]
      else pconst e
  | ECos (ESym s) =>
      if String.eqb s "phi_s" then [mk_mono (ENum 1) 0 1 0 0]
      else if String.eqb s "theta_s" then [mk_mono (ENum 1) 0 0 0 1]
      else pconst e
  | _ => pconst e
  end.

(** a polynomial whose azimuth atoms are gone, back to an expression *)
Definition mono_expr (m : mono) : expr :=
  emul (mc m)
    (emul (epow (ESin (ESym "phi_s")) (msp m))
      (emul (epow (ECos (ESym "phi_s")) (mcp m))
        (emul (epow (ESin (ESym "theta_s")) (mst m))
              (epow (ECos (ESym "theta_s")) (mct m))))).
Definition poly_expr (p : poly) : expr := esum (map mono_expr p).

(** ** sympy.legendre(k, x) for an integer k: the polynomial in x.
    Coefficients (lowest first) by Bonnet's recurrence, as in sympy's legendre_poly. *)
Fixpoint qladd (a b : list Q) : list Q :=
  match a, b with
  | [], _ => b
  | _, [] => a
  | x :: a', y :: b' => Qred (x + y) :: qladd a' b'
  end.
Definition qlscale (c : Q) (a : list Q) : list Q := map (fun x => Qred (c * x)) a.

Fixpoint leg_coefs2 (n : nat) : list Q * list Q :=   (** (L_n, L_{n+1}) *)
  match n with
  | O => ([1%Q], [0%Q; 1%Q])
  | S m =>
      let '(a, b) := leg_coefs2 m in
      (b, qladd (qlscale ((2 * inject_Z (Z.of_nat m) + 3) / (inject_Z (Z.of_nat m) + 2)) (0%Q :: b))
                (qlscale (- (inject_Z (Z.of_nat m) + 1) / (inject_Z (Z.of_nat m) + 2)) a))
  end.
Definition leg_coefs (n : nat) : list Q := fst (leg_coefs2 n).

Fixpoint poly_in (cs : list Q) (x : expr) (j : nat) : expr :=
  match cs with
  | [] => ENum 0
  | c :: cs' => eadd (emul (ENum c) (epow x j)) (poly_in cs' x (S j))
  end.
Definition sp_legendre (k : nat) (x : expr) : expr := poly_in (leg_coefs k) x 0.

(** ** sympy.diff.  [None]: the derivative of sign(f(x)) has no lambdifiable form. *)
Definition obind {A B} (o : option A) (f : A -> option B) : option B :=
  match o with Some a => f a | None => None end.

Fixpoint diff (x : string) (e : expr) : option expr :=
  match e with
  | ENum _ | EPi => Some (ENum 0)
  | ESym s => Some (if String.eqb s x then ENum 1 else ENum 0)
  | EAdd a b => obind (diff x a) (fun da => obind (diff x b) (fun db => Some (eadd da db)))
  | EMul a b => obind (diff x a) (fun da => obind (diff x b) (fun db =>
                  Some (eadd (emul da b) (emul a db))))
  | EDiv a b => obind (diff x a) (fun da => obind (diff x b) (fun db =>
                  Some (esub (emul da (EDiv (ENum 1) b))
                             (emul (emul a db) (EDiv (ENum 1) (EPow b 2))))))
  | EPow a n => obind (diff x a) (fun da =>
                  Some (emul (emul (enum_nat n) (epow a (pred n))) da))
  | EP32 a => obind (diff x a) (fun da => Some (emul (emul (ENum (3#2)) (ESqrt a)) da))
  | ESqrt a => obind (diff x a) (fun da => Some (emul da (EDiv (ENum (1#2)) (ESqrt a))))
  | ESin a => obind (diff x a) (fun da => Some (emul (ECos a) da))
  | ECos a => obind (diff x a) (fun da => Some (emul (emul (ENum (-1)) (ESin a)) da))
  | EExp a => obind (diff x a) (fun da => Some (emul (EExp a) da))
  | ELog a => obind (diff x a) (fun da => Some (emul da (EDiv (ENum 1) a)))
  | ESign a => if mem x (syms a) then None else Some (ENum 0)
  end.
