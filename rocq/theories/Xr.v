(** Extended reals: the values of numpy double arrays.

    Simplifications (stated once, they apply to the whole model): arithmetic on finite
    values is exact real arithmetic (no rounding, no overflow/underflow) and there is one
    zero, which behaves like +0.0 in divisions.  NaN and the infinities follow numpy. *)
From Coq Require Export Reals Lra.
From Verif Require Export Base.
From Coquelicot Require Import Coquelicot.
Open Scope R_scope.

Inductive xr : Type := Fin (r : R) | PInf | NInf | NaN.

Definition xopp (a : xr) : xr :=
  match a with Fin r => Fin (- r) | PInf => NInf | NInf => PInf | NaN => NaN end.

Definition xadd (a b : xr) : xr :=
  match a, b with
  | Fin x, Fin y => Fin (x + y)
  | NaN, _ | _, NaN => NaN
  | PInf, NInf | NInf, PInf => NaN
  | PInf, _ | _, PInf => PInf
  | NInf, _ | _, NInf => NInf
  end.

Definition xsub (a b : xr) : xr := xadd a (xopp b).

(** sign of a finite number as -1, 0, 1 *)
Definition rsign (r : R) : Z :=
  if Rlt_dec 0 r then 1%Z else if Rlt_dec r 0 then (-1)%Z else 0%Z.

Definition inf_of_sign (s : Z) : xr :=
  match s with Z0 => NaN | Zpos _ => PInf | Zneg _ => NInf end.

Definition xmul (a b : xr) : xr :=
  match a, b with
  | Fin x, Fin y => Fin (x * y)
  | NaN, _ | _, NaN => NaN
  | PInf, PInf | NInf, NInf => PInf
  | PInf, NInf | NInf, PInf => NInf
  | PInf, Fin y | Fin y, PInf => inf_of_sign (rsign y)
  | NInf, Fin y | Fin y, NInf => inf_of_sign (- rsign y)
  end.

(** numpy true division; a zero divisor counts as +0.0. *)
Definition xdiv (a b : xr) : xr :=
  match a, b with
  | NaN, _ | _, NaN => NaN
  | Fin x, Fin y => if Req_EM_T y 0 then inf_of_sign (rsign x) else Fin (x / y)
  | Fin _, _ => Fin 0
  | PInf, Fin y => if Rlt_dec y 0 then NInf else PInf
  | NInf, Fin y => if Rlt_dec y 0 then PInf else NInf
  | _, _ => NaN
  end.

Fixpoint xpow (a : xr) (n : nat) : xr :=
  match n with O => Fin 1 | S n' => xmul a (xpow a n') end.

(** [x ** 1.5] *)
Definition xpow32 (a : xr) : xr :=
  match a with
  | Fin r => if Rlt_dec r 0 then NaN else Fin (r * sqrt r)
  | PInf | NInf => PInf
  | NaN => NaN
  end.

Definition xsqrt (a : xr) : xr :=
  match a with
  | Fin r => if Rlt_dec r 0 then NaN else Fin (sqrt r)
  | PInf => PInf
  | NInf | NaN => NaN
  end.

Definition xexp (a : xr) : xr :=
  match a with Fin r => Fin (exp r) | PInf => PInf | NInf => Fin 0 | NaN => NaN end.

Definition xlog (a : xr) : xr :=
  match a with
  | Fin r => if Rlt_dec 0 r then Fin (ln r) else if Rlt_dec r 0 then NaN else NInf
  | PInf => PInf
  | NInf | NaN => NaN
  end.

Definition xlog10 (a : xr) : xr := xdiv (xlog a) (Fin (ln 10)).

Definition xcos (a : xr) : xr := match a with Fin r => Fin (cos r) | _ => NaN end.
Definition xsin (a : xr) : xr := match a with Fin r => Fin (sin r) | _ => NaN end.

Definition xsign (a : xr) : xr :=
  match a with
  | Fin r => Fin (IZR (rsign r)) | PInf => Fin 1 | NInf => Fin (-1) | NaN => NaN
  end.

Definition xis_nan (a : xr) : bool := match a with NaN => true | _ => false end.

(** [a == 0.0] *)
Definition xis_zero (a : xr) : bool :=
  match a with Fin r => if Req_EM_T r 0 then true else false | _ => false end.

(** [a > 0.0] *)
Definition xgt0 (a : xr) : bool :=
  match a with Fin r => if Rlt_dec 0 r then true else false | PInf => true | _ => false end.

Definition is_fin (a : xr) : Prop := exists r, a = Fin r.

(** ** Exponential integrals: what scipy.special.expn / expi are taken to compute.

    [E m tau] is E_m(tau) = int_1^oo exp(-tau t)/t^m dt, written with u = 1/t as an integral
    over (0,1].  [Ei] is the Cauchy principal value of int_{-oo}^x exp(t)/t dt:
    for x < 0 it is -E_1(-x); for x > 0 the symmetric part of the singular interval cancels,
    Ei(x) = Ei(-x) + int_0^x (exp(t)-exp(-t))/t dt (written with t = x u). *)
Definition En_integrand (m : nat) (tau u : R) : R :=
  match m with
  | O => / (u * u) * exp (- tau / u)
  | S O => / u * exp (- tau / u)
  | S (S k) => u ^ k * exp (- tau / u)
  end.
Definition En (m : nat) (tau : R) : R := RInt (En_integrand m tau) 0 1.
Definition Ei (x : R) : R :=
  if Rlt_dec x 0 then - En 1 (- x)
  else - En 1 x + RInt (fun u => (exp (x * u) - exp (- (x * u))) / u) 0 1.

(** scipy.special.expn(m, x), m >= 2 (the only use, src/rt1_model/_calc.py:1078):
    +inf outside its domain x < 0, 0 at +inf. *)
Definition xexpn (m : nat) (a : xr) : xr :=
  match a with
  | Fin r => if Rlt_dec r 0 then PInf else Fin (En m r)
  | PInf => Fin 0
  | NInf => PInf
  | NaN => NaN
  end.

(** scipy.special.expi: -inf at 0. *)
Definition xexpi (a : xr) : xr :=
  match a with
  | Fin r => if Req_EM_T r 0 then NInf else Fin (Ei r)
  | PInf => PInf
  | NInf => Fin 0
  | NaN => NaN
  end.

(** ** Elementary facts *)

Lemma xadd_Fin x y : xadd (Fin x) (Fin y) = Fin (x + y). Proof. reflexivity. Qed.
Lemma xsub_Fin x y : xsub (Fin x) (Fin y) = Fin (x - y). Proof. reflexivity. Qed.
Lemma xmul_Fin x y : xmul (Fin x) (Fin y) = Fin (x * y). Proof. reflexivity. Qed.
Lemma xopp_Fin x : xopp (Fin x) = Fin (- x). Proof. reflexivity. Qed.
Lemma xexp_Fin x : xexp (Fin x) = Fin (exp x). Proof. reflexivity. Qed.
Lemma xdiv_Fin x y : y <> 0 -> xdiv (Fin x) (Fin y) = Fin (x / y).
Proof. intros H. simpl. destruct (Req_EM_T y 0); [contradiction|reflexivity]. Qed.
Lemma xpow_Fin x n : xpow (Fin x) n = Fin (x ^ n).
Proof. induction n as [|n IH]; simpl; [reflexivity|]. now rewrite IH. Qed.
Lemma xlog_Fin x : 0 < x -> xlog (Fin x) = Fin (ln x).
Proof. intros H. simpl. destruct (Rlt_dec 0 x); [reflexivity|contradiction]. Qed.

Lemma rsign_pos x : 0 < x -> rsign x = 1%Z.
Proof. intros H. unfold rsign. destruct (Rlt_dec 0 x); [reflexivity|contradiction]. Qed.
Lemma rsign_neg x : x < 0 -> rsign x = (-1)%Z.
Proof.
  intros H. unfold rsign. destruct (Rlt_dec 0 x); [lra|].
  destruct (Rlt_dec x 0); [reflexivity|contradiction].
Qed.
Lemma rsign_0 : rsign 0 = 0%Z.
Proof. unfold rsign. destruct (Rlt_dec 0 0); [lra|]. reflexivity. Qed.

Lemma ln10_pos : 0 < ln 10.
Proof. rewrite <- ln_1. apply ln_increasing; lra. Qed.

Lemma xlog10_Fin x : 0 < x -> xlog10 (Fin x) = Fin (ln x / ln 10).
Proof.
  intros H. unfold xlog10. rewrite xlog_Fin by assumption.
  apply xdiv_Fin. pose proof ln10_pos; lra.
Qed.
Lemma xlog10_0 : xlog10 (Fin 0) = NInf.
Proof.
  unfold xlog10, xlog. destruct (Rlt_dec 0 0); [lra|].
  simpl. destruct (Rlt_dec (ln 10) 0); [pose proof ln10_pos; lra|reflexivity].
Qed.
