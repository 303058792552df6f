(** The exact validity domains C49-C54 as properties in their own right (the same theorems are the
    proved parts of C30, C31, C25, C28 and C42). *)
From Coquelicot Require Import Coquelicot.
From Verif Require Import ExpInt AzInt LegFacts CosLobe.
From Coq Require Import Lia List.
From Verif Require Import SpecScat SpecExp SpecInt Flip.
From Verif Require Export Properties4 Properties5 Properties7.
Open Scope string_scope.
Open Scope list_scope.
Open Scope R_scope.

(** *** C49.  In monostatic mode the interaction row is the documented double scattering integral. *)
Theorem C49_monostatic_interaction_exact : forall w p o i y iq sg db x f V SRF,
  let w' := fst (step w p) in
  tidy w p -> returns_interaction w p o i y ->
  obs_flags w' o iq sg db -> obs_mode w' o true -> sample w' o i x f V SRF -> (sg = true -> p_I0 x <> 0%R) ->
  exists F1 F2, y = in_units db (interaction_value x F1 F2 * unit_factor sg x) /\
    is_Fint (expansion_value f V) (expansion_value f SRF) (p_tau x) (p_t0 x) (f "phi_0") (p_tex x) (f "phi_ex") F1 /\
    is_Fint (expansion_value f V) (expansion_value f SRF) (p_tau x) (p_tex x) (f "phi_ex") (p_t0 x) (f "phi_0") F2.
Proof. exact C30_monostatic_partial. Qed.
Print Assumptions C49_monostatic_interaction_exact.

(** *** C50.  The exact value of the interaction row in bistatic mode. *)
Theorem C50_bistatic_interaction_value : forall w p o i y iq sg db x f V SRF,
  let w' := fst (step w p) in
  tidy w p -> returns_interaction w p o i y ->
  obs_flags w' o iq sg db -> obs_mode w' o false -> sample w' o i x f V SRF -> (sg = true -> p_I0 x <> 0%R) ->
  exists F1 F2 (t_in p_in t_out p_out : R), y = in_units db (interaction_value x F1 F2 * unit_factor sg x) /\
    is_Fint (expansion_value f V) (expansion_value f SRF) (p_tau x) (p_t0 x) (f "phi_0") (p_tex x) (f "phi_ex" + PI) F1 /\
    is_F (cos (p_tex x)) (p_tau x) (fun th ph => expansion_value f V (PI - t_in) th p_in ph)
      (fun th ph => expansion_value f SRF th t_out ph (p_out + PI)) F2 /\
    if_fixed w' o T0 t_in (p_t0 x) (p_tex x) /\ if_fixed w' o P0 p_in (f "phi_0") (f "phi_ex") /\
    if_fixed w' o TEx t_out (p_tex x) (p_t0 x) /\ if_fixed w' o PEx p_out (f "phi_ex") (f "phi_0").
Proof. exact C30_bistatic_value. Qed.
Print Assumptions C50_bistatic_interaction_value.

(** *** C51.  Surface and volume contributions do not depend on how the geometry was set. *)
Theorem C51_direct_contributions_mode_independent : forall w1 o1 kw1 i1 m1 x1 f1 y1 y2 y3 w2 o2 kw2 i2 m2 x2 f2 z1 z2 z3 sg db V SRF,
  calc_at w1 o1 kw1 i1 m1 sg db x1 f1 V SRF y1 y2 y3 ->
  calc_at w2 o2 kw2 i2 m2 sg db x2 f2 V SRF z1 z2 z3 ->
  (forall s, In s ("theta_0" :: "theta_ex" :: "phi_0" :: "phi_ex" :: nil) -> f1 s = f2 s) ->
  same_params f1 f2 V SRF -> same_numbers x1 x2 ->
  y1 = z1 /\ y2 = z2.
Proof. exact C31_direct_partial. Qed.
Print Assumptions C51_direct_contributions_mode_independent.

(** *** C52.  CosineLobe coefficients, i >= 1. *)
Theorem C52_coslobe_positive_powers : forall i nc a n e f, (1 <= i)%nat -> legendre_coefficient n (SCos i nc a) = Ok e ->
  is_RInt (fun x => (2 * INR n + 1) / 2 * (b_coslobe i x * legP n x)) (-1) 1 (evalR f e).
Proof. exact C25_coslobe_partial. Qed.
Print Assumptions C52_coslobe_positive_powers.

(** *** C53.  Expansions of linear combinations with matching ncoefs. *)
Theorem C53_lincomb_matching_ncoefs : forall cs a t_0 t_ex p_0 p_ex e f,
  uniform cs ->
  plain (LinComb cs a) -> legendre_expansion t_0 t_ex p_0 p_ex (LinComb cs a) = Ok e ->
  exists es : scat -> expr, (forall c, In c cs -> legendre_expansion t_0 t_ex p_0 p_ex (snd c) = Ok (es (snd c))) /\
    evalR f e = lin f cs (fun s => evalR f (es s)).
Proof. exact C28_expansion_linear_partial. Qed.
Print Assumptions C53_lincomb_matching_ncoefs.

(** *** C54.  Ordinary parameter symbols behave like numbers. *)
Theorem C54_ordinary_symbols : forall x q s t_0 t_ex p_0 p_ex e f,
  no_n s -> (forall cs a, s = LinComb cs a -> uniform (put_choices x q cs)) ->
  legendre_expansion t_0 t_ex p_0 p_ex s = Ok e -> f x = Q2R q ->
  exists e', legendre_expansion t_0 t_ex p_0 p_ex (put x q s) = Ok e' /\ evalR f e = evalR f e'.
Proof. exact C42_symbol_partial. Qed.
Print Assumptions C54_ordinary_symbols.

