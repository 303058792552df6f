(** What jacobian() is documented to return (src/rt1_model/_calc.py:1496-1540): derivatives of the total
    backscatter without interaction contribution, in linear units or dB, intensity or sigma0.
    Nothing here refers to the model of the program. *)
From Coquelicot Require Import Coquelicot.
From Coq Require Import Reals Lra Psatz.
From Verif Require Import Spec.
Open Scope R_scope.

Definition set_omega (x : point) (v : R) : point :=
  mk_point (p_I0 x) (p_t0 x) (p_tex x) (p_tau x) v (p_norm x) (p_bsfr x) (p_vol x) (p_brdf x).
Definition set_norm (x : point) (v : R) : point :=
  mk_point (p_I0 x) (p_t0 x) (p_tex x) (p_tau x) (p_omega x) v (p_bsfr x) (p_vol x) (p_brdf x).
Definition set_bsf (x : point) (v : R) : point :=
  mk_point (p_I0 x) (p_t0 x) (p_tex x) (p_tau x) (p_omega x) (p_norm x) v (p_vol x) (p_brdf x).
(** surface + volume *)
Definition direct_value (x : point) : R := surface_value x + volume_value x.
(** in the selected unit *)
Definition measured (sig0 dB : bool) (x : point) : R :=
  let v := direct_value x * unit_factor sig0 x in if dB then 10 * (ln v / ln 10) else v.

(** ** Derivatives of the formulas *)
(** the partial derivatives *)
Definition part_tau (x : point) : R :=
  - (1 / cos (p_t0 x) + 1 / cos (p_tex x)) * attenuation x * (p_norm x * (1 - p_bsfr x) * (p_I0 x * cos (p_t0 x) * p_brdf x))
  + (1 - p_bsfr x) * (p_I0 x * p_omega x * (cos (p_t0 x) / (cos (p_t0 x) + cos (p_tex x))) * ((1 / cos (p_t0 x) + 1 / cos (p_tex x)) * attenuation x) * p_vol x).
Definition part_omega (x : point) : R := (1 - p_bsfr x) * (p_I0 x * cos (p_t0 x) / (cos (p_t0 x) + cos (p_tex x)) * (1 - attenuation x) * p_vol x).
Definition part_norm (x : point) : R := (1 - p_bsfr x) * (attenuation x * (p_I0 x * cos (p_t0 x) * p_brdf x)) + p_bsfr x * (p_I0 x * cos (p_t0 x) * p_brdf x).
Definition part_bsf (x : point) : R :=
  p_norm x * (p_I0 x * cos (p_t0 x) * p_brdf x - attenuation x * (p_I0 x * cos (p_t0 x) * p_brdf x)) - p_I0 x * p_omega x * cos (p_t0 x) / (cos (p_t0 x) + cos (p_tex x)) * (1 - attenuation x) * p_vol x.
Definition part_vol (x : point) : R := (1 - p_bsfr x) * (p_I0 x * p_omega x * cos (p_t0 x) / (cos (p_t0 x) + cos (p_tex x)) * (1 - attenuation x)).
Definition part_brdf (x : point) : R := p_norm x * ((1 - p_bsfr x) * (attenuation x * (p_I0 x * cos (p_t0 x))) + p_bsfr x * (p_I0 x * cos (p_t0 x))).
(** a family of samples [X] that share intensity and angles, with derivatives of its parameters *)
Section Chain.
  Context (X : R -> point) (u : R) (dt dm dn db dv ds : R).
  Notation x := (X u).
  Hypothesis (E0 : forall v, p_I0 (X v) = p_I0 x) (E1 : forall v, p_t0 (X v) = p_t0 x) (E2 : forall v, p_tex (X v) = p_tex x).
  Hypothesis (D1 : is_derive (fun v => p_tau (X v)) u dt) (D2 : is_derive (fun v => p_omega (X v)) u dm) (D3 : is_derive (fun v => p_norm (X v)) u dn)
    (D4 : is_derive (fun v => p_bsfr (X v)) u db) (D5 : is_derive (fun v => p_vol (X v)) u dv) (D6 : is_derive (fun v => p_brdf (X v)) u ds).
  Hypothesis (C0 : cos (p_t0 x) <> 0) (C1 : cos (p_tex x) <> 0) (C2 : cos (p_t0 x) + cos (p_tex x) <> 0).
  Notation m0 := (cos (p_t0 x)).
  Notation m1 := (cos (p_tex x)).
  Notation att := (attenuation x).
  Notation part_tau := (part_tau x). Notation part_omega := (part_omega x). Notation part_norm := (part_norm x).
  Notation part_bsf := (part_bsf x). Notation part_vol := (part_vol x). Notation part_brdf := (part_brdf x).
  Lemma att_derive : is_derive (fun v => attenuation (X v)) u (- (1 / m0 + 1 / m1) * att * dt).
  Proof.
    apply (is_derive_ext (fun v => exp (- (1 / m0 + 1 / m1) * p_tau (X v)))).
    { intros v. unfold attenuation. rewrite (E1 v), (E2 v). f_equal. field. auto. }
    replace (- (1 / m0 + 1 / m1) * att * dt) with (- (1 / m0 + 1 / m1) * dt * exp (- (1 / m0 + 1 / m1) * p_tau x)).
    - apply (is_derive_comp exp (fun v => - (1 / m0 + 1 / m1) * p_tau (X v))); [apply is_derive_exp|].
      now apply (is_derive_scal (fun v => p_tau (X v))).
    - unfold attenuation. replace (- (p_tau x / m0 + p_tau x / m1)) with (- (1 / m0 + 1 / m1) * p_tau x) by (field; auto). ring.
  Qed.
  Lemma mulD (f g : R -> R) a b : is_derive f u a -> is_derive g u b -> is_derive (fun v => f v * g v) u (a * g u + f u * b).
  Proof. intros F G. apply (is_derive_mult f g u a b F G). intros p q. apply Rmult_comm. Qed.
  Lemma direct_derive : is_derive (fun v => direct_value (X v)) u
    (dt * part_tau + dm * part_omega + dn * part_norm + db * part_bsf + dv * part_vol + ds * part_brdf).
  Proof.
    pose proof att_derive as DA.
    set (k := p_I0 x * m0). set (q := p_I0 x * (m0 / (m0 + m1))).
    apply (is_derive_ext (fun v => k * (p_norm (X v) * (p_brdf (X v) * ((1 - p_bsfr (X v)) * attenuation (X v) + p_bsfr (X v))))
       + q * ((1 - p_bsfr (X v)) * (p_omega (X v) * ((1 - attenuation (X v)) * p_vol (X v)))))).
    { intros v. unfold direct_value, surface_value, volume_value, k, q. rewrite (E0 v), (E1 v), (E2 v). match goal with |- ?a = ?b => change (@eq R a b) end. ring. }
    assert (DB : is_derive (fun v => 1 - p_bsfr (X v)) u (- db)).
    { replace (- db) with (0 - db) by ring. apply (is_derive_minus (fun _ => 1)); [apply (is_derive_const 1)|exact D4]. }
    assert (DA' : is_derive (fun v => 1 - attenuation (X v)) u (0 - (- (1 / m0 + 1 / m1) * att * dt))).
    { apply (is_derive_minus (fun _ => 1)); [apply (is_derive_const 1)|exact DA]. }
    pose proof (mulD _ _ _ _ DB DA) as S1.
    pose proof (is_derive_plus _ _ u _ _ S1 D4) as S2. pose proof (mulD _ _ _ _ D6 S2) as S3. pose proof (mulD _ _ _ _ D3 S3) as S4.
    pose proof (is_derive_scal _ u k _ S4) as S5.
    pose proof (mulD _ _ _ _ DA' D5) as V1. pose proof (mulD _ _ _ _ D2 V1) as V2. pose proof (mulD _ _ _ _ DB V2) as V3.
    pose proof (is_derive_scal _ u q _ V3) as V4. pose proof (is_derive_plus _ _ u _ _ S5 V4) as S.
    replace (dt * part_tau + dm * part_omega + dn * part_norm + db * part_bsf + dv * part_vol + ds * part_brdf) with
      (plus (k * (dn * (p_brdf x * plus ((1 - p_bsfr x) * att) (p_bsfr x)) + p_norm x * (ds * plus ((1 - p_bsfr x) * att) (p_bsfr x) +
          p_brdf x * plus (- db * att + (1 - p_bsfr x) * (- (1 / m0 + 1 / m1) * att * dt)) db)))
        (q * (- db * (p_omega x * ((1 - att) * p_vol x)) + (1 - p_bsfr x) * (dm * ((1 - att) * p_vol x) + p_omega x *
          ((0 - (- (1 / m0 + 1 / m1) * att * dt)) * p_vol x + (1 - att) * dv))))); [exact S|].
    unfold plus; cbn. unfold SpecJac.part_tau, SpecJac.part_omega, SpecJac.part_norm, SpecJac.part_bsf, SpecJac.part_vol, SpecJac.part_brdf, k, q. field. auto.
  Qed.
  Lemma measured_derive sg db' d : is_derive (fun v => direct_value (X v)) u d -> (sg = true -> p_I0 x <> 0) ->
    (db' = true -> 0 < direct_value x * unit_factor sg x) ->
    is_derive (fun v => measured sg db' (X v)) u (if db' then 10 / (ln 10 * direct_value x) * d else unit_factor sg x * d).
  Proof.
    intros D H0 HD. assert (K : forall v, unit_factor sg (X v) = unit_factor sg x) by (intros v; unfold unit_factor; now rewrite (E0 v), (E1 v)).
    assert (DU : is_derive (fun v => direct_value (X v) * unit_factor sg (X v)) u (d * unit_factor sg x)).
    { apply (is_derive_ext (fun v => unit_factor sg x * direct_value (X v))); [intros v; rewrite (K v); match goal with |- ?a = ?b => change (@eq R a b) end; ring|].
      replace (d * unit_factor sg x) with (unit_factor sg x * d) by ring. now apply (is_derive_scal (fun v => direct_value (X v))). }
    unfold measured. destruct db'; [|now rewrite Rmult_comm].
    specialize (HD eq_refl). assert (L : 0 < ln 10) by (rewrite <- ln_1; apply ln_increasing; lra).
    apply (is_derive_ext (fun v => 10 / ln 10 * ln (direct_value (X v) * unit_factor sg (X v)))); [intros v; cbv zeta; match goal with |- ?a = ?b => change (@eq R a b) end; field; lra|].
    replace (10 / (ln 10 * direct_value x) * d) with (10 / ln 10 * (d * unit_factor sg x * / (direct_value x * unit_factor sg x))).
    - apply (is_derive_scal (fun v => ln (direct_value (X v) * unit_factor sg (X v)))).
      apply (is_derive_comp ln (fun v => direct_value (X v) * unit_factor sg (X v))); [now apply is_derive_ln|exact DU].
    - field. repeat split; try lra; intros Z; rewrite Z in HD; lra.
  Qed.
End Chain.
