(** The documented Legendre expansions, over the real numbers (docs/theory.rst,
    docs/model_specification.rst).  Nothing here refers to the model of the program. *)
From Coq Require Import Reals.
From Verif Require Import SpecScat.
From Coquelicot Require Import Coquelicot.
Open Scope R_scope.

(** sum_{k < n} c_k P_k(x) *)
Fixpoint leg_series (c : nat -> R) (n : nat) (x : R) : R :=
  match n with O => 0 | S m => leg_series c m x + c m * legP m x end.
(** Legendre coefficients *)
Definition delta (i k : nat) : R := if Nat.eqb i k then 1 else 0.
Definition c_isotropic (k : nat) : R := 1 / (4 * PI) * delta 0 k.
Definition c_rayleigh (k : nat) : R := 3 / (16 * PI) * (4 / 3 * delta 0 k + 2 / 3 * delta 2 k).
Definition c_hg (t : R) (k : nat) : R := 1 / (4 * PI) * (2 * INR k + 1) * t ^ k.
Definition c_hgrayleigh (t : R) (k : nat) : R :=
  3 / (8 * PI) / (2 + t ^ 2) *
  ((if Nat.ltb k 2 then 0 else INR k * (INR k - 1) / (2 * INR k - 1) * t ^ (k - 2))
   + ((INR k + 2) * (INR k + 1) / (2 * INR k + 3) * t ^ (k + 2)
      + (INR k + 1) ^ 2 / (2 * INR k + 3) * t ^ k
      + (5 * INR k ^ 2 - 1) / (2 * INR k - 1) * t ^ k)).
Definition c_lambert (k : nat) : R := 1 / PI * delta 0 k.
(** projection of max(x,0)^i / pi on P_k *)
Definition c_coslobe (i k : nat) : R := 1 / PI * ((2 * INR k + 1) / 2 * RInt (fun x => x ^ i * legP k x) 0 1).
Definition c_bhg (t : R) (k : nat) : R := 1 / PI * (2 * INR k + 1) * t ^ k.
Definition c_bhgn (t a : R) (k : nat) : R := 1 / hg_nadir t a * c_bhg t k.
