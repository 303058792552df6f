(** Energy conservation of the direct contributions: C96. *)
From Coquelicot Require Import Coquelicot.
From Coq Require Import Reals Lia Lra List.
From Verif Require Import SpecScat SpecExp SpecInt Spec Quad Quad2 Trunc Sphere Energy.
From Verif Require Import Interact2 Memo Same Properties3 Properties4 Properties5 Properties6 Properties8 Properties24 Properties25 After Wit4.
Open Scope string_scope.
Open Scope R_scope.

(** in intensity units, calc() of an object with the functions [V] and [SRF] returns the surface and volume
    contributions [s th ph] and [v th ph] for every exit direction [th], [ph] above the surface, where the incident
    intensity is [I0], the incident direction ([t0], [p0]), the parameters are [tau], [omega], [nrm], [bsf], and the
    other parameters of the two functions have the values [f0]; any object, state, history and position in the arrays
    may have been used for each direction *)
Definition direct_family (I0 t0 p0 tau omega nrm bsf : R) (f0 : string -> R) (V SRF : scat) (s v : R -> R -> R) : Prop :=
  forall th ph, 0 < th < PI / 2 -> exists w o kw i mono x f y3,
    calc_at w o kw i mono false false x f V SRF (Fin (s th ph)) (Fin (v th ph)) y3 /\
    p_I0 x = I0 /\ p_t0 x = t0 /\ p_tex x = th /\ p_tau x = tau /\ p_omega x = omega /\ p_norm x = nrm /\ p_bsfr x = bsf /\
    f "phi_0" = p0 /\ f "phi_ex" = ph /\ same_params f f0 V SRF.

Section Family.
  Context (I0 t0 p0 tau omega nrm bsf : R) (f0 : string -> R) (V SRF : scat) (s v : R -> R -> R).
  Hypothesis (NV : no_angles V) (NS : no_angles SRF) (Fa : direct_family I0 t0 p0 tau omega nrm bsf f0 V SRF s v).
  Lemma family_values th ph : 0 < th < PI / 2 ->
    0 < cos t0 /\ 0 < tau /\
    s th ph = nrm * I0 * cos t0 * distribution f0 SRF t0 th p0 ph * ((1 - bsf) * exp (- (tau / cos t0 + tau / cos th)) + bsf) /\
    v th ph = (1 - bsf) * (I0 * omega * (cos t0 / (cos t0 + cos th)) * (1 - exp (- (tau / cos t0 + tau / cos th))) * distribution f0 V t0 th p0 ph).
  Proof.
    intros H. destruct (Fa th ph H) as (w & o & kw & i & mono & x & f & y3 & K & E1 & E2 & E3 & E4 & E5 & E6 & E7 & E8 & E9 & SP).
    destruct (calc_at_direct _ _ _ _ _ _ _ _ _ _ _ _ _ _ K) as [D1 D2]. destruct (calc_at_phase _ _ _ _ _ _ _ _ _ _ _ _ _ _ K) as (P1 & P2 & P3 & P4).
    destruct (calc_at_basic _ _ _ _ _ _ _ _ _ _ _ _ _ _ K) as [BV BS].
    assert (PH : forall z, no_angles z -> (forall y, In y (scat_syms z) -> f y = f0 y) -> Forall is_basic (members z) -> phase_value f z = distribution f0 z t0 th p0 ph).
    { intros z Nz Hz Bz. unfold distribution. rewrite ev_phase. apply phase_same; [|assumption|].
      - intros y Hy. rewrite dirs_other by (now apply Nz). now apply Hz.
      - intros b _. unfold ang_of. change (dirs f0 t0 th p0 ph "theta_0") with t0. change (dirs f0 t0 th p0 ph "theta_ex") with th.
        change (dirs f0 t0 th p0 ph "phi_0") with p0. change (dirs f0 t0 th p0 ph "phi_ex") with ph. rewrite P3, P4, E8, E9, E2, E3. reflexivity. }
    rewrite (PH V NV ltac:(intros; apply SP; auto) BV) in P1. rewrite (PH SRF NS ltac:(intros; apply SP; auto) BS) in P2.
    destruct K as (a & _ & _ & _ & _ & _ & Sa & _). destruct Sa as (_ & _ & _ & _ & _ & _ & _ & _ & C0 & _ & Tp). rewrite E2 in C0. rewrite E4 in Tp.
    unfold in_units, unit_factor in D1, D2. rewrite Rmult_1_r in D1, D2. injection D1 as D1. injection D2 as D2.
    split; [apply C0|]. split; [exact Tp|]. unfold surface_value in D1. unfold volume_value in D2. unfold attenuation in D1, D2.
    rewrite E1, E2, E3, E4, E6, E7, P2 in D1. rewrite E1, E2, E3, E4, E5, E7, P1 in D2. auto.
  Qed.
  Lemma family_range : 0 < cos t0 /\ 0 < tau.
  Proof. pose proof PI_RGT_0. destruct (family_values (PI / 4) 0 ltac:(lra)) as (A & B & _). auto. Qed.
End Family.

(** *** C96.  The direct contributions do not create energy.
    [is_power s q]: q is the integral of s(theta, phi) cos(theta) sin(theta) over the exit hemisphere.
    For a normalised volume function (C27) and a BRDF of hemispherical reflectance [Rf], both not negative, the power that
    the surface and volume contributions carry away is at most the incident power I0 cos(t_0) times the fraction of it that
    reaches the surface and is reflected there, plus the fraction that is scattered in the layer. *)
Theorem C96_scattered_power : forall I0 t0 p0 tau omega nrm bsf f0 V SRF s v Rf q,
  direct_family I0 t0 p0 tau omega nrm bsf f0 V SRF s v ->
  0 <= I0 -> 0 <= omega -> 0 <= nrm -> 0 <= bsf <= 1 ->
  no_angles V -> standard f0 V -> (forall th ph, 0 <= distribution f0 V t0 th p0 ph) ->
  no_angles SRF -> (forall th ph, 0 <= distribution f0 SRF t0 th p0 ph) ->
  is_power (fun th ph => distribution f0 SRF t0 th p0 ph) Rf ->
  is_power (fun th ph => s th ph + v th ph) q ->
  0 <= q <= I0 * cos t0 * (nrm * Rf * ((1 - bsf) * exp (- tau / cos t0) + bsf) + (1 - bsf) * omega * (1 - exp (- tau / cos t0))).
Proof.
  intros I0 t0 p0 tau omega nrm bsf f0 V SRF s v Rf q Fa HI Ho Hn Hb NV SV PV NS PS IR IQ.
  destruct (family_range _ _ _ _ _ _ _ _ _ _ _ _ NV NS Fa) as [C0 Tp].
  pose proof (power_bound I0 t0 tau omega nrm bsf Rf q _ _ s v HI C0 Tp Ho Hn Hb PS PV) as K.
  assert (X : forall a, I0 * cos t0 * (nrm * Rf * ((1 - bsf) * a + bsf) + (1 - bsf) * omega * (1 - a)) =
     nrm * I0 * cos t0 * ((1 - bsf) * a + bsf) * Rf + (1 - bsf) * I0 * omega * cos t0 * (1 - a)) by (intros; ring).
  rewrite X. apply K; try assumption.
  - intros th ph H. now destruct (family_values _ _ _ _ _ _ _ _ _ _ _ _ NV NS Fa th ph H) as (_ & _ & E & _).
  - intros th ph H. now destruct (family_values _ _ _ _ _ _ _ _ _ _ _ _ NV NS Fa th ph H) as (_ & _ & _ & E).
  - now apply C27_volume_normalised.
Qed.
Print Assumptions C96_scattered_power.
(** In particular, it is at most the incident power if omega <= 1 and the surface reflects at most what it receives. *)
Theorem C96_energy_conserved : forall I0 t0 p0 tau omega nrm bsf f0 V SRF s v Rf q,
  direct_family I0 t0 p0 tau omega nrm bsf f0 V SRF s v ->
  0 <= I0 -> 0 <= omega <= 1 -> 0 <= nrm -> 0 <= bsf <= 1 ->
  no_angles V -> standard f0 V -> (forall th ph, 0 <= distribution f0 V t0 th p0 ph) ->
  no_angles SRF -> (forall th ph, 0 <= distribution f0 SRF t0 th p0 ph) ->
  is_power (fun th ph => distribution f0 SRF t0 th p0 ph) Rf -> nrm * Rf <= 1 ->
  is_power (fun th ph => s th ph + v th ph) q ->
  0 <= q <= I0 * cos t0.
Proof.
  intros I0 t0 p0 tau omega nrm bsf f0 V SRF s v Rf q Fa HI Ho Hn Hb NV SV PV NS PS IR HR IQ.
  destruct (C96_scattered_power I0 t0 p0 tau omega nrm bsf f0 V SRF s v Rf q Fa HI ltac:(lra) Hn Hb NV SV PV NS PS IR IQ) as [K1 K2].
  split; [exact K1|]. eapply Rle_trans; [exact K2|]. destruct (family_range _ _ _ _ _ _ _ _ _ _ _ _ NV NS Fa) as [C0 Tp].
  assert (A : 0 < exp (- tau / cos t0) < 1).
  { split; [apply exp_pos|]. rewrite <- exp_0. apply exp_increasing. assert (0 < tau / cos t0) by (now apply Rdiv_lt_0_compat). unfold Rdiv in *. lra. }
  set (a := exp (- tau / cos t0)) in *. rewrite <- (Rmult_1_r (I0 * cos t0)) at 2. apply Rmult_le_compat_l; [apply Rmult_le_pos; lra|].
  assert (X : 0 <= (1 - bsf) * a) by (apply Rmult_le_pos; lra). assert (Y : 0 <= (1 - bsf) * (1 - a)) by (apply Rmult_le_pos; lra).
  assert (nrm * Rf * ((1 - bsf) * a + bsf) <= 1 * ((1 - bsf) * a + bsf)) by (apply Rmult_le_compat_r; lra).
  assert ((1 - bsf) * omega * (1 - a) <= 1 * ((1 - bsf) * (1 - a))) by (replace ((1 - bsf) * omega * (1 - a)) with (omega * ((1 - bsf) * (1 - a))) by ring; apply Rmult_le_compat_r; lra).
  lra.
Qed.
Print Assumptions C96_energy_conserved.
(** The integrals exist: for the functions of C67/C68 the BRDF has a hemispherical reflectance and the contributions
    carry a power, although the attenuation has no value at theta = pi/2. *)
Theorem C96_power_exists : forall I0 t0 p0 tau omega nrm bsf f0 V SRF s v,
  direct_family I0 t0 p0 tau omega nrm bsf f0 V SRF s v ->
  no_angles V -> regular f0 V -> no_angles SRF -> regular f0 SRF ->
  (exists Rf, is_power (fun th ph => distribution f0 SRF t0 th p0 ph) Rf) /\ exists q, is_power (fun th ph => s th ph + v th ph) q.
Proof.
  intros I0 t0 p0 tau omega nrm bsf f0 V SRF s v Fa NV RV NS RS.
  destruct (family_range _ _ _ _ _ _ _ _ _ _ _ _ NV NS Fa) as [C0 Tp].
  split; [apply reflect_exists; now apply dist_uc|].
  apply (power_exists I0 t0 tau omega nrm bsf _ _ s v C0 Tp (dist_uc f0 SRF t0 p0 NS RS) (dist_uc f0 V t0 p0 NV RV)).
  - intros th ph H. now destruct (family_values _ _ _ _ _ _ _ _ _ _ _ _ NV NS Fa th ph H) as (_ & _ & E & _).
  - intros th ph H. now destruct (family_values _ _ _ _ _ _ _ _ _ _ _ _ NV NS Fa th ph H) as (_ & _ & _ & E).
Qed.
Print Assumptions C96_power_exists.

(** Henyey-Greenstein layer and surface, incident at 1 rad *)
Lemma wC_family : direct_family 2 1 0 1 (1/3) (1/4) 0 (fun _ => 1/4) VC SC
  (fun th ph => surface_value (xC Bi 1 th 0 ph)) (fun th ph => volume_value (xC Bi 1 th 0 ph)).
Proof.
  intros th ph H.
  assert (L : forall u, 0 < u < PI / 2 -> 0 < cos u < 1) by (intros u Hu; split; [apply cos_gt_0; lra|]; rewrite <- cos_0; apply cos_decreasing_1; lra).
  assert (C0 : 0 < cos 1 < 1) by (apply L; pose proof PI2_1; lra).
  assert (C1 : 0 < cos th < 1) by (now apply L).
  destruct (wC_calc Bi 1 th 0 ph C0 C1) as (y1 & y2 & y3 & K).
  destruct (calc_at_direct _ _ _ _ _ _ _ _ _ _ _ _ _ _ K) as [D1 D2]. unfold in_units, unit_factor in D1, D2. rewrite Rmult_1_r in D1, D2.
  exists (wC Bi 1 th 0 ph), 0%nat, nil, (1%nat :: nil), false, (xC Bi 1 th 0 ph), (fC Bi 1 th 0 ph), y3.
  rewrite <- D1, <- D2. split; [exact K|]. repeat (split; [reflexivity|]). intros y Hy. cbn [scat_syms syms a_syms a0 a1 a2 a_vol a_srf app In] in Hy. intuition (subst; reflexivity).
Qed.
Lemma hg_quarter x : -1 <= x <= 1 -> 0 <= hg (1/4) x <= 20 / 9.
Proof.
  intros H. unfold hg, pow32. set (u := 1 + (1/4) ^ 2 - 2 * (1/4) * x). assert (U : 9 / 16 <= u) by (unfold u; lra).
  assert (S : 3 / 4 <= sqrt u) by (rewrite <- (sqrt_Rsqr (3/4)) by lra; apply sqrt_le_1; unfold Rsqr; lra).
  assert (P : 27 / 64 <= u * sqrt u) by (replace (27/64) with (9/16 * (3/4)) by field; apply Rmult_le_compat; lra).
  split; [apply Rmult_le_pos; [lra|left; apply Rinv_0_lt_compat; lra]|].
  apply Rmult_le_reg_r with (u * sqrt u); [lra|]. unfold Rdiv at 1. rewrite Rmult_assoc, Rinv_l by lra. lra.
Qed.
Example C96_nonvacuous : exists I0 t0 p0 tau omega nrm bsf f0 V SRF s v Rf q,
  direct_family I0 t0 p0 tau omega nrm bsf f0 V SRF s v /\ 0 < I0 /\ 0 < omega <= 1 /\ 0 < nrm /\ 0 <= bsf <= 1 /\
  no_angles V /\ standard f0 V /\ regular f0 V /\ (forall th ph, 0 <= distribution f0 V t0 th p0 ph) /\
  no_angles SRF /\ regular f0 SRF /\ (forall th ph, 0 <= distribution f0 SRF t0 th p0 ph) /\
  is_power (fun th ph => distribution f0 SRF t0 th p0 ph) Rf /\ nrm * Rf <= 1 /\ is_power (fun th ph => s th ph + v th ph) q /\ q <= I0 * cos t0.
Proof.
  set (f0 := fun _ : string => 1/4).
  assert (NV : no_angles VC) by (intros x Hx; cbn [scat_syms syms a_syms a0 a1 a2 a_vol app In] in Hx; destruct Hx as [<-|[]]; intros X; repeat (destruct X as [X|X]; [discriminate X|]); exact X).
  assert (NS : no_angles SC) by (intros x Hx; cbn [scat_syms syms a_syms a0 a1 a2 a_srf app In] in Hx; destruct Hx as [<-|[]]; intros X; repeat (destruct X as [X|X]; [discriminate X|]); exact X).
  assert (EN : Q2R 1 = 1 /\ Q2R (-1) = -1) by (unfold Q2R; simpl; lra). destruct EN as [EN1 EN2].
  assert (T : Rabs (1/4) < 1) by (rewrite Rabs_pos_eq; lra).
  assert (UV : unit_a f0 a_vol) by (unfold unit_a; cbn [a_vol a0 a1 a2 evalR]; rewrite EN1, EN2, Rabs_R1; split; [apply Rabs_le|]; lra).
  assert (US : unit_a f0 a_srf) by (unfold unit_a; cbn [a_srf a0 a1 a2 evalR]; rewrite EN1, Rabs_R1; lra).
  assert (SV : standard f0 VC) by (cbn [standard]; split; [unfold ev_a; cbn [a_vol a0 a1 a2 evalR]; rewrite EN1, EN2; reflexivity|exact T]).
  assert (RV : regular f0 VC) by (split; assumption). assert (RS : regular f0 SC) by (split; assumption).
  pose proof PI_RGT_0 as HP.
  assert (DV : forall th ph, 0 <= distribution f0 VC 1 th 0 ph).
  { intros. unfold distribution. rewrite ev_phase. cbn [phase_value]. rewrite dirs_ang by (intros x Hx; apply NV; cbn [scat_syms]; apply in_or_app; auto).
    unfold p_hg. apply Rmult_le_pos; [|left; apply Rinv_0_lt_compat; lra]. apply hg_quarter. apply unit_angle. exact UV. }
  assert (DS : forall th ph, 0 <= distribution f0 SC 1 th 0 ph <= 20 / 9 / PI).
  { intros. unfold distribution. rewrite ev_phase. cbn [phase_value]. rewrite dirs_ang by (intros x Hx; apply NS; cbn [scat_syms]; apply in_or_app; auto).
    unfold b_hg. pose proof (hg_quarter (cos_angle (ev_a f0 a_srf) 1 th 0 ph) ltac:(apply unit_angle; exact US)) as B.
    assert (0 < / PI) by (now apply Rinv_0_lt_compat). change (evalR (dirs f0 1 th 0 ph) (ESym "t")) with (1/4). unfold Rdiv at 2 5.
    split; [apply Rmult_le_pos; lra|apply Rmult_le_compat_r; lra]. }
  destruct (C96_power_exists 2 1 0 1 (1/3) (1/4) 0 f0 VC SC _ _ wC_family NV RV NS RS) as [[Rf HR] [q Hq]].
  assert (B : Rf <= 20 / 9).
  { destruct HR as (J & J1 & J2). assert (I1 : is_RInt (fun th => cos th * sin th) 0 (PI / 2) (1 / 2)).
    { eapply is_val; [apply (is_RInt_derive (fun th => sin th * sin th / 2) (fun th => cos th * sin th))|].
      - intros x _. auto_derive; [exact I|]. field.
      - intros x _. apply (ex_derive_continuous (fun th => cos th * sin th)). auto_derive. exact I.
      - unfold minus, plus, opp. simpl. rewrite sin_PI2, sin_0. field. }
    assert (Bj : forall ph, J ph <= 20 / 9 / PI * (1 / 2)).
    { intros ph. apply (is_RInt_le (fun th => distribution f0 SC 1 th 0 ph * cos th * sin th) (fun th => 20 / 9 / PI * (cos th * sin th)) 0 (PI / 2)); [lra|apply J1| |].
      - apply (is_RInt_scal (fun th => cos th * sin th) 0 (PI / 2) (20 / 9 / PI) _ I1).
      - intros th Hth. rewrite Rmult_assoc. apply Rmult_le_compat_r; [|apply DS]. apply Rmult_le_pos; [apply cos_ge_0; lra|apply sin_ge_0; lra]. }
    apply Rle_trans with (scal (2 * PI - 0) (20 / 9 / PI * (1 / 2))); [|right; unfold scal; simpl; unfold mult; simpl; field; lra].
    apply (is_RInt_le J (fun _ => 20 / 9 / PI * (1 / 2)) 0 (2 * PI)); [lra|exact J2|apply (is_RInt_const (V := R_NormedModule))|intros ph _; apply Bj]. }
  exists 2, 1, 0, 1, (1/3), (1/4), 0, f0, VC, SC, (fun th ph => surface_value (xC Bi 1 th 0 ph)), (fun th ph => volume_value (xC Bi 1 th 0 ph)), Rf, q.
  split; [exact wC_family|]. split; [lra|]. split; [lra|]. split; [lra|]. split; [lra|]. split; [exact NV|]. split; [exact SV|]. split; [exact RV|]. split; [exact DV|].
  split; [exact NS|]. split; [exact RS|]. split; [intros; apply DS|]. split; [exact HR|]. split; [lra|]. split; [exact Hq|].
  apply (C96_energy_conserved 2 1 0 1 (1/3) (1/4) 0 f0 VC SC _ _ Rf q wC_family); try assumption; try lra. intros; apply DS.
Qed.
