(** The documented first-order interaction contribution (docs/theory.rst:134-187, docstring of
    RT1.interaction), over the real numbers.  Nothing here refers to the model of the program. *)
From Coquelicot Require Import Coquelicot.
From Coq Require Import Reals.
From Verif Require Import Spec.
Open Scope R_scope.

(** weight of the intermediate direction with cosine [mu] *)
Definition weight (mu0 tau mu : R) : R := mu / (mu0 - mu) * (exp (- tau / mu0) - exp (- tau / mu)).
(** [is_F mu0 tau p b F]: F is the integral over the upper hemisphere of intermediate directions
    (theta, phi), mu = cos theta, of weight * p(theta, phi) * b(theta, phi) *)
Definition is_F (mu0 tau : R) (p b : R -> R -> R) (F : R) : Prop :=
  (forall th, ex_RInt (fun ph => p th ph * b th ph) 0 (2 * PI)) /\
  is_RInt (fun mu => weight mu0 tau mu * RInt (fun ph => p (acos mu) ph * b (acos mu) ph) 0 (2 * PI)) 0 1 F.
(** the interaction contribution, given F(0 -> ex) and F(ex -> 0) *)
Definition interaction_value (x : point) (F1 F2 : R) : R :=
  p_norm x * (1 - p_bsfr x) *
  (p_I0 x * cos (p_t0 x) * p_omega x *
   (exp (- p_tau x / cos (p_tex x)) * F1 + exp (- p_tau x / cos (p_t0 x)) * F2)).
(** [F] of a volume phase function and a BRDF (functions of two directions theta, theta', phi, phi')
    for radiation coming from (t0, p0) and leaving to (tex, pex) *)
Definition is_Fint (vol brdf : R -> R -> R -> R -> R) (tau t0 p0 tex pex F : R) : Prop :=
  is_F (cos t0) tau (fun th ph => vol (PI - t0) th p0 ph) (fun th ph => brdf th tex ph pex) F.
