(** The documented radiative-transfer formulas, over the real numbers (docs/theory.rst; src/rt1_model/_calc.py docstrings of calc, surface, volume,
    interaction).  Nothing here refers to the model of the program. *)
From Coq Require Import Reals.
Open Scope R_scope.

(** one sample: incident intensity, incidence and exit zenith angle, the layer parameters, and the
    values of the volume phase function and of the BRDF at the sample's angles *)
Record point : Type := mk_point {
  p_I0 : R; p_t0 : R; p_tex : R;
  p_tau : R; p_omega : R; p_norm : R; p_bsfr : R;
  p_vol : R; p_brdf : R }.

(** two-way attenuation of the layer *)
Definition attenuation (x : point) : R := exp (- (p_tau x / cos (p_t0 x) + p_tau x / cos (p_tex x))).
(** attenuated surface contribution, mixed with the bare-soil contribution *)
Definition surface_value (x : point) : R :=
  p_norm x * p_I0 x * cos (p_t0 x) * p_brdf x * ((1 - p_bsfr x) * attenuation x + p_bsfr x).
(** volume contribution of the covered fraction *)
Definition volume_value (x : point) : R :=
  (1 - p_bsfr x) * (p_I0 x * p_omega x * (cos (p_t0 x) / (cos (p_t0 x) + cos (p_tex x)))
                    * (1 - attenuation x) * p_vol x).
(** bare soil: no covering layer *)
Definition bare_value (x : point) : R := p_norm x * p_I0 x * cos (p_t0 x) * p_brdf x.
(** volume contribution of an infinitely deep layer *)
Definition deep_value (x : point) : R :=
  (1 - p_bsfr x) * (p_I0 x * p_omega x * (cos (p_t0 x) / (cos (p_t0 x) + cos (p_tex x))) * p_vol x).
(** sigma0 = 4 pi cos(t_0) I / I0 *)
Definition unit_factor (sig0 : bool) (x : point) : R := if sig0 then 4 * PI * cos (p_t0 x) / p_I0 x else 1.
Definition set_tau (x : point) (t : R) : point :=
  mk_point (p_I0 x) (p_t0 x) (p_tex x) t (p_omega x) (p_norm x) (p_bsfr x) (p_vol x) (p_brdf x).

(** ** Real analysis of these formulas *)
From Coq Require Import Lra Psatz.
Definition physical (x : point) : Prop :=
  0 < p_I0 x /\ 0 < cos (p_t0 x) /\ 0 < cos (p_tex x) /\ 0 <= p_tau x /\ 0 <= p_omega x /\ 0 <= p_norm x /\
  0 <= p_bsfr x <= 1 /\ 0 <= p_vol x /\ 0 <= p_brdf x.

Lemma attenuation_le x : 0 < cos (p_t0 x) -> 0 < cos (p_tex x) -> 0 <= p_tau x -> 0 < attenuation x <= 1.
Proof.
  intros H1 H2 H3. unfold attenuation. split; [apply exp_pos|].
  assert (0 <= p_tau x / cos (p_t0 x)) by (apply Rmult_le_pos; [assumption|left; now apply Rinv_0_lt_compat]).
  assert (0 <= p_tau x / cos (p_tex x)) by (apply Rmult_le_pos; [assumption|left; now apply Rinv_0_lt_compat]).
  destruct (Req_dec (- (p_tau x / cos (p_t0 x) + p_tau x / cos (p_tex x))) 0) as [E|N]; [rewrite E, exp_0; lra|].
  left. rewrite <- exp_0. apply exp_increasing. lra.
Qed.
Lemma attenuation_mono x t1 t2 : 0 < cos (p_t0 x) -> 0 < cos (p_tex x) -> t1 <= t2 ->
  attenuation (set_tau x t2) <= attenuation (set_tau x t1).
Proof.
  intros H1 H2 H3. unfold attenuation, set_tau. simpl.
  assert (t1 / cos (p_t0 x) <= t2 / cos (p_t0 x)) by (apply Rmult_le_compat_r; [left; now apply Rinv_0_lt_compat|assumption]).
  assert (t1 / cos (p_tex x) <= t2 / cos (p_tex x)) by (apply Rmult_le_compat_r; [left; now apply Rinv_0_lt_compat|assumption]).
  set (u := t1 / cos (p_t0 x) + t1 / cos (p_tex x)) in *. set (v := t2 / cos (p_t0 x) + t2 / cos (p_tex x)) in *.
  destruct (Req_dec u v) as [->|N]; [lra|]. left. apply exp_increasing. unfold u, v in *. lra.
Qed.
Lemma ratio_pos x : 0 < cos (p_t0 x) -> 0 < cos (p_tex x) -> 0 < cos (p_t0 x) / (cos (p_t0 x) + cos (p_tex x)).
Proof. intros. apply Rdiv_lt_0_compat; lra. Qed.
Lemma surface_pos x : physical x -> 0 <= surface_value x <= bare_value x.
Proof.
  intros (H1 & H2 & H3 & H4 & H5 & H6 & H7 & H8 & H9). destruct (attenuation_le x H2 H3 H4) as [A1 A2].
  unfold surface_value, bare_value.
  assert (0 <= p_norm x * p_I0 x * cos (p_t0 x) * p_brdf x) by (repeat apply Rmult_le_pos; lra).
  set (b := p_norm x * p_I0 x * cos (p_t0 x) * p_brdf x) in *.
  assert (0 <= (1 - p_bsfr x) * attenuation x) by (apply Rmult_le_pos; lra).
  assert ((1 - p_bsfr x) * attenuation x <= (1 - p_bsfr x) * 1) by (apply Rmult_le_compat_l; lra).
  split; [apply Rmult_le_pos; lra|]. rewrite <- (Rmult_1_r b) at 2. apply Rmult_le_compat_l; lra.
Qed.
Lemma volume_pos x : physical x -> 0 <= volume_value x <= deep_value x.
Proof.
  intros (H1 & H2 & H3 & H4 & H5 & H6 & H7 & H8 & H9). destruct (attenuation_le x H2 H3 H4) as [A1 A2].
  pose proof (ratio_pos x H2 H3) as Hr. unfold volume_value, deep_value.
  set (q := cos (p_t0 x) / (cos (p_t0 x) + cos (p_tex x))) in *. clearbody q.
  assert (0 <= (1 - p_bsfr x) * (p_I0 x * p_omega x * q * p_vol x)) by (repeat apply Rmult_le_pos; lra).
  set (d := (1 - p_bsfr x) * (p_I0 x * p_omega x * q * p_vol x)) in *.
  replace ((1 - p_bsfr x) * (p_I0 x * p_omega x * q * (1 - attenuation x) * p_vol x)) with (d * (1 - attenuation x)) by (unfold d; ring).
  split; [apply Rmult_le_pos; lra|]. rewrite <- (Rmult_1_r d) at 2. apply Rmult_le_compat_l; lra.
Qed.
Lemma surface_mono x t1 t2 : physical x -> t1 <= t2 -> surface_value (set_tau x t2) <= surface_value (set_tau x t1).
Proof.
  intros (H1 & H2 & H3 & H4 & H5 & H6 & H7 & H8 & H9) H. pose proof (attenuation_mono x t1 t2 H2 H3 H).
  unfold surface_value. cbn [p_norm p_I0 p_t0 p_brdf p_bsfr set_tau].
  apply Rmult_le_compat_l; [repeat apply Rmult_le_pos; lra|].
  apply Rplus_le_compat_r. apply Rmult_le_compat_l; lra.
Qed.
Lemma volume_mono x t1 t2 : physical x -> t1 <= t2 -> volume_value (set_tau x t1) <= volume_value (set_tau x t2).
Proof.
  intros (H1 & H2 & H3 & H4 & H5 & H6 & H7 & H8 & H9) H. pose proof (attenuation_mono x t1 t2 H2 H3 H).
  pose proof (ratio_pos x H2 H3) as Hr. unfold volume_value. cbn [p_norm p_I0 p_t0 p_tex p_brdf p_bsfr p_omega p_vol set_tau].
  set (q := cos (p_t0 x) / (cos (p_t0 x) + cos (p_tex x))) in *. clearbody q. apply Rmult_le_compat_l; [lra|]. apply Rmult_le_compat_r; [lra|]. apply Rmult_le_compat_l; [repeat apply Rmult_le_pos; lra|]. lra.
Qed.
