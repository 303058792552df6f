(** What the figures of plot.py are documented to show, over the real numbers.
    Nothing here refers to the model of the program. *)
From Coquelicot Require Import Coquelicot.
From Coq Require Import Reals.
Open Scope R_scope.

(** [reflectance b q]: q is the hemispherical reflectance of a BRDF as a function of the exit direction
    (theta, phi): the integral of b(theta, phi) cos(theta) over the upper hemisphere
    (docs/theory.rst: R(theta_0) = int_0^2pi int_0^pi/2 BRDF cos(theta) sin(theta) dtheta dphi) *)
Definition reflectance (b : R -> R -> R) (q : R) : Prop :=
  (forall th, ex_RInt (fun ph => b th ph) 0 (2 * PI)) /\
  is_RInt (fun th => RInt (fun ph => b th ph) 0 (2 * PI) * cos th * sin th) 0 (PI / 2) q.
