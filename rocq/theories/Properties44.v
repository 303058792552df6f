(** Rounding errors of the derivatives of the surface contribution: C108. *)
From Flocq Require Import Core Relative.
From Coquelicot Require Import Coquelicot.
From Coq Require Import ZArith Reals Lra Lia List.
From Verif Require Import Spec Float Jacobian.
From Verif Require Import Elem Properties35 Properties42.
Open Scope R_scope.

(** ** Model: the derivatives in program order, over an arbitrary arithmetic *)
Section Derivatives.
  Context (A : arith).
  Notation "1" := (f_num A 1).
  (** np.exp(-self.tau / self._mu_0 - self.tau / self._mu_ex), _calc.py:1236 *)
  Definition g_atten' (tau mu0 muex : xr) : xr := f_exp A (f_sub A (f_div A (f_neg A tau) mu0) (f_div A tau muex)).
  (** _calc.py:1233-1244 _dsurface_dtau, from the values of mu_0, mu_ex and SRF.calc *)
  Definition g_dsurface_dtau (i0 mu0 muex srf tau norm bsf : xr) : xr :=
    f_mul A (f_mul A norm (f_sub A 1 bsf))
      (f_mul A (f_mul A (f_mul A (f_mul A i0 (f_sub A (f_div A (f_num A (-1)) mu0) (f_div A 1 muex))) (g_atten' tau mu0 muex)) mu0) srf).
  (** _calc.py:1270-1284 _dsurface_dNormBRDF *)
  Definition g_dsurface_dnorm (i0 mu0 muex srf tau bsf : xr) : xr :=
    g_mix A bsf (f_mul A (g_atten A tau mu0 muex) (g_bare A i0 mu0 srf)) (g_bare A i0 mu0 srf).
  (** _calc.py:1300-1318; np.ones_like contributes a factor 1 _dsurface_dbsf *)
  Definition g_dsurface_dbsf (i0 mu0 muex srf tau norm : xr) : xr :=
    f_mul A norm (f_sub A (g_bare A i0 mu0 srf) (f_mul A (f_mul A (g_atten A tau mu0 muex) (g_bare A i0 mu0 srf)) 1)).
End Derivatives.

(** with exact arithmetic these are the elements of the derivatives of Jacobian.v *)
Lemma exact_dtau i0 mu0 muex tau srf norm bsf a i : k_dsurface_dtau i0 mu0 muex tau srf norm bsf = Ok a ->
  bget a i = g_dsurface_dtau exact (bget i0 i) (bget mu0 i) (bget muex i) (bget srf i) (bget tau i) (bget norm i) (bget bsf i).
Proof. unfold k_dsurface_dtau, k_atten2. kernel. unfold nexp, nneg. rewrite ?bget_map1. bg. rewrite ?bget_map1. reflexivity. Qed.
Lemma exact_dnorm i0 mu0 muex srf tau bsf a i : k_dsurface_dNormBRDF i0 mu0 muex srf tau bsf = Ok a ->
  bget a i = g_dsurface_dnorm exact (bget i0 i) (bget mu0 i) (bget muex i) (bget srf i) (bget tau i) (bget bsf i).
Proof. unfold k_dsurface_dNormBRDF, k_bare, k_atten, k_mix. kernel. unfold nexp, nneg. repeat (progress (bg; unfold nexp, nneg; rewrite ?bget_map1, ?bget_scalar)). reflexivity. Qed.
Lemma exact_dbsf i0 mu0 muex srf tau norm t0 a i : k_dsurface_dbsf i0 mu0 muex srf tau norm t0 = Ok a ->
  bget a i = g_dsurface_dbsf exact (bget i0 i) (bget mu0 i) (bget muex i) (bget srf i) (bget tau i) (bget norm i).
Proof. unfold k_dsurface_dbsf, k_bare, k_atten. kernel. unfold nexp, nneg. repeat (progress (bg; unfold nexp, nneg; rewrite ?bget_map1, ?bget_scalar)). reflexivity. Qed.

(** ** Specification: parameters replaced one at a time *)
Definition set_norm (x : point) (t : R) : point :=
  mk_point (p_I0 x) (p_t0 x) (p_tex x) (p_tau x) (p_omega x) t (p_bsfr x) (p_vol x) (p_brdf x).
Definition set_bsf (x : point) (t : R) : point :=
  mk_point (p_I0 x) (p_t0 x) (p_tex x) (p_tau x) (p_omega x) (p_norm x) t (p_vol x) (p_brdf x).

(** ** Signs *)
Lemma ieee_opp r z : ieee (Fin r) = Fin z -> ieee (Fin (- r)) = Fin (- z).
Proof.
  cbn [ieee]. rewrite fl_opp. destruct (Rle_dec (two 1024) (fl r)); [discriminate|]. destruct (Rle_dec (fl r) (- two 1024)); [discriminate|]. intros E. injection E as <-.
  destruct (Rle_dec (two 1024) (- fl r)); [lra|]. destruct (Rle_dec (- fl r) (- two 1024)); [lra|reflexivity].
Qed.
Section Signs.
  Context (L : libm).
  Notation A := (binary64 L).
  Lemma mul_neg_l u v z : f_mul A (Fin u) (Fin v) = Fin z -> f_mul A (Fin (- u)) (Fin v) = Fin (- z).
  Proof. cbn [f_mul binary64 xmul]. intros E. replace (- u * v) with (- (u * v)) by ring. now apply ieee_opp. Qed.
  Lemma mul_neg_r u v z : f_mul A (Fin u) (Fin v) = Fin z -> f_mul A (Fin u) (Fin (- v)) = Fin (- z).
  Proof. cbn [f_mul binary64 xmul]. intros E. replace (u * - v) with (- (u * v)) by ring. now apply ieee_opp. Qed.
  Lemma div_neg_l u v z : v <> 0 -> f_div A (Fin u) (Fin v) = Fin z -> f_div A (Fin (- u)) (Fin v) = Fin (- z).
  Proof.
    intros N. cbn [f_div binary64 xdiv]. destruct (Req_EM_T v 0) as [->|_]; [contradiction|]. intros E. replace (- u / v) with (- (u / v)) by (field; assumption). now apply ieee_opp.
  Qed.
  Lemma atten_same t m0 m1 z : m0 <> 0 -> f_div A (Fin t) (Fin m0) = Fin z -> g_atten' A (Fin t) (Fin m0) (Fin m1) = g_atten A (Fin t) (Fin m0) (Fin m1).
  Proof. intros N E. unfold g_atten', g_atten. cbn [f_neg binary64 xopp]. rewrite (div_neg_l _ _ _ N E), E. reflexivity. Qed.
  Lemma num_m1 : f_num A (-1) = Fin (Ropp 1).
  Proof. cbn [f_num binary64]. replace (-1) with (Ropp 1) by ring. apply ieee_opp. exact (num_1 L). Qed.
End Signs.

(** ** The derivatives of the specification *)
Lemma tau_derivative x : cos (p_t0 x) <> 0 -> cos (p_tex x) <> 0 ->
  derivable_pt_lim (fun t => surface_value (set_tau x t)) (p_tau x)
    (- (p_norm x * (1 - p_bsfr x) * (p_I0 x * (1 / cos (p_t0 x) + 1 / cos (p_tex x)) * attenuation x * cos (p_t0 x) * p_brdf x))).
Proof.
  intros N0 N1. apply is_derive_Reals. unfold surface_value, attenuation, set_tau. cbn [p_I0 p_t0 p_tex p_tau p_norm p_bsfr p_brdf].
  auto_derive; [tauto|]. unfold Rdiv. ring.
Qed.
Lemma norm_derivative x : derivable_pt_lim (fun t => surface_value (set_norm x t)) (p_norm x)
    ((1 - p_bsfr x) * (attenuation x * (p_I0 x * cos (p_t0 x) * p_brdf x)) + p_bsfr x * (p_I0 x * cos (p_t0 x) * p_brdf x)).
Proof.
  apply is_derive_Reals. unfold surface_value, attenuation, set_norm. cbn [p_I0 p_t0 p_tex p_tau p_norm p_bsfr p_brdf].
  auto_derive; [tauto|]. ring.
Qed.
Lemma bsf_derivative x : derivable_pt_lim (fun t => surface_value (set_bsf x t)) (p_bsfr x)
    (p_norm x * (p_I0 x * cos (p_t0 x) * p_brdf x * (1 - attenuation x))).
Proof.
  apply is_derive_Reals. unfold surface_value, attenuation, set_bsf. cbn [p_I0 p_t0 p_tex p_tau p_norm p_bsfr p_brdf].
  auto_derive; [tauto|]. ring.
Qed.

(** *** C108.  Rounding errors of the derivatives of the surface contribution. *)
Lemma small c : 0 <= c <= 4000 -> 0 <= c * eps <= 1 / 64.
Proof.
  intros H. pose proof eps_small as EP. split; [apply Rmult_le_pos; lra|]. apply Rle_trans with (4000 * two (-20)); [apply Rmult_le_compat; try lra; unfold eps; apply bpow_le; lia|].
  change (two (-20)) with (/ 1048576). lra.
Qed.
Lemma near_rel c d v z : near d v z -> d <= c * eps -> 0 <= c <= 4000 -> Rabs (z - v) <= 2 * c * eps * Rabs v.
Proof.
  intros N D C. pose proof (small c C). apply (near_weak d (c * eps)) in N; [|exact D]. apply near_bound in N. eapply Rle_trans; [exact N|].
  apply Rmult_le_compat_r; [apply Rabs_pos|]. replace (2 * c * eps) with (2 * (c * eps)) by ring. apply exp_lin. lra.
Qed.
Section Bounds.
  Context (L : libm) (x : point) (srf k : R).
  Hypothesis (GE : good_exp L) (G0 : good_cos L (p_t0 x)) (G1 : good_cos L (p_tex x)) (IR : in_range x).
  Hypothesis (C0 : 0 < cos (p_t0 x)) (C1 : 0 < cos (p_tex x)) (DT : depth x <= 300) (Hk : 0 <= k <= 1000).
  Hypothesis (Nb : near (k * eps) (p_brdf x) srf) (Sb : sized (-60) 60 srf).
  Notation A := (binary64 L).
  Notation T := (depth x).
  Lemma e3 : 0 <= exp (3 * eps) - 1 <= 6 * eps.
  Proof. pose proof eps_small. pose proof (exp_lin (3 * eps) ltac:(lra)). pose proof (exp_ineq1_le (3 * eps)). lra. Qed.
  Lemma te : 0 <= T * (exp (3 * eps) - 1) <= 6 * T * eps.
  Proof.
    pose proof e3. pose proof (T_pos x IR C0 C1). split; [apply Rmult_le_pos; lra|]. apply Rle_trans with (T * (6 * eps)); [apply Rmult_le_compat_l; lra|lra].
  Qed.
  Lemma dtau_near :
    exists r, g_dsurface_dtau A (Fin (p_I0 x)) (f_cos A (Fin (p_t0 x))) (f_cos A (Fin (p_tex x))) (Fin srf) (Fin (p_tau x)) (Fin (p_norm x)) (Fin (p_bsfr x)) = Fin (- r) /\
      near ((12 + k + 6 * T) * eps) (p_norm x * (1 - p_bsfr x) * (p_I0 x * (1 / cos (p_t0 x) + 1 / cos (p_tex x)) * attenuation x * cos (p_t0 x) * p_brdf x)) r.
  Proof.
    destruct (cos_sized _ _ G0) as (m0 & -> & N0 & S0 & P0). destruct (cos_sized _ _ G1) as (m1 & -> & N1 & S1 & P1). pose proof eps_small as EP. pose proof te as TE.
    destruct (atten_ok L x GE IR C0 C1 DT m0 m1 N0 S0 P0 N1 S1 P1) as (e & Ee & Ne & Se & _ & _).
    destruct (one_bsf L x IR) as (ob & Eo & So & No & Bo). destruct IR as (Si & St & _ & Sn & _).
    destruct (op_div L (-60) 60 (-60) 0 0 eps _ _ _ _ St S0 (near_refl _) N0 ltac:(lra) ltac:(lia) ltac:(lia) ltac:(lia)) as (tq & Et & _).
    assert (W1 : sized 0 0 1) by (right; rewrite two_0; lra).
    destruct (op_div L _ _ _ _ 0 _ _ _ _ _ W1 S0 (near_refl _) N0 ltac:(lra) ltac:(lia) ltac:(lia) ltac:(lia)) as (q0 & E0 & Z0 & M0).
    destruct (op_div L _ _ _ _ 0 _ _ _ _ _ W1 S1 (near_refl _) N1 ltac:(lra) ltac:(lia) ltac:(lia) ltac:(lia)) as (q1 & E1 & Z1 & M1).
    assert (I0 : 0 <= 1 / cos (p_t0 x)) by (left; apply Rdiv_lt_0_compat; lra). assert (I1 : 0 <= 1 / cos (p_tex x)) by (left; apply Rdiv_lt_0_compat; lra).
    destruct (op_add L _ _ _ _ _ _ _ Z0 Z1 M0 M1 I0 I1 ltac:(lia) ltac:(lia) ltac:(lia)) as (q & Eq & Z & M).
    assert (Eq' : f_sub A (Fin (- q0)) (Fin q1) = Fin (- q)).
    { cbn [f_sub f_add binary64 xsub xadd xopp] in *. replace (- q0 + - q1) with (- (q0 + q1)) by ring. now apply ieee_opp. }
    assert (Z0' : m0 <> 0) by lra.
    unfold g_dsurface_dtau. rewrite (atten_same L _ _ _ _ Z0' Et), Ee, Eo, num_m1, num_1. rewrite (div_neg_l L _ _ _ Z0' E0), E1, Eq'.
    destruct (op_mul L _ _ _ _ 0 _ _ _ _ _ Si Z (near_refl _) M ltac:(lia) ltac:(lia) ltac:(lia)) as (z1 & F1 & Y1 & K1). rewrite (mul_neg_r _ _ _ _ F1).
    destruct (op_mul L _ _ _ _ _ _ _ _ _ _ Y1 Se K1 Ne ltac:(lia) ltac:(lia) ltac:(lia)) as (z2 & F2 & Y2 & K2). rewrite (mul_neg_l _ _ _ _ F2).
    destruct (op_mul L _ _ _ _ _ _ _ _ _ _ Y2 S0 K2 N0 ltac:(lia) ltac:(lia) ltac:(lia)) as (z3 & F3 & Y3 & K3). rewrite (mul_neg_l _ _ _ _ F3).
    destruct (op_mul L _ _ _ _ _ _ _ _ _ _ Y3 Sb K3 Nb ltac:(lia) ltac:(lia) ltac:(lia)) as (z4 & F4 & Y4 & K4). rewrite (mul_neg_l _ _ _ _ F4).
    destruct (op_mul L _ _ _ _ 0 _ _ _ _ _ Sn So (near_refl _) No ltac:(lia) ltac:(lia) ltac:(lia)) as (z5 & -> & Y5 & K5).
    destruct (op_mul L _ _ _ _ _ _ _ _ _ _ Y5 Y4 K5 K4 ltac:(lia) ltac:(lia) ltac:(lia)) as (z6 & F6 & Y6 & K6). rewrite (mul_neg_r _ _ _ _ F6).
    exists z6. split; [reflexivity|]. eapply near_weak; [exact K6|]. lra.
  Qed.
  Lemma dnorm_near :
    exists r, g_dsurface_dnorm A (Fin (p_I0 x)) (f_cos A (Fin (p_t0 x))) (f_cos A (Fin (p_tex x))) (Fin srf) (Fin (p_tau x)) (Fin (p_bsfr x)) = Fin r /\
      near ((8 + k + 6 * T) * eps) ((1 - p_bsfr x) * (attenuation x * (p_I0 x * cos (p_t0 x) * p_brdf x)) + p_bsfr x * (p_I0 x * cos (p_t0 x) * p_brdf x)) r.
  Proof.
    destruct (cos_sized _ _ G0) as (m0 & -> & N0 & S0 & P0). destruct (cos_sized _ _ G1) as (m1 & -> & N1 & S1 & P1). pose proof eps_small as EP. pose proof te as TE.
    destruct (atten_ok L x GE IR C0 C1 DT m0 m1 N0 S0 P0 N1 S1 P1) as (e & Ee & Ne & Se & _ & _). destruct (bare_ok L x IR m0 srf _ N0 S0 Nb Sb) as (b & Eb & Sz & Nz).
    destruct (one_bsf L x IR) as (ob & Eo & So & No & Bo).
    pose proof (attenuation_le x C0 C1 ltac:(destruct IR as (_ & St & _); now apply sized_pos in St)) as AT.
    destruct IR as (Si & _ & _ & _ & Sf & _).
    unfold g_dsurface_dnorm, g_mix. rewrite Ee, Eb, Eo.
    destruct (op_mul L _ _ _ _ _ _ _ _ _ _ Se Sz Ne Nz ltac:(lia) ltac:(lia) ltac:(lia)) as (z1 & -> & Z1 & M1).
    destruct (op_mul L _ _ _ _ _ _ _ _ _ _ So Z1 No M1 ltac:(lia) ltac:(lia) ltac:(lia)) as (z2 & -> & Z2 & M2).
    destruct (op_mul L _ _ _ _ 0 _ _ _ _ _ Sf Sz (near_refl _) Nz ltac:(lia) ltac:(lia) ltac:(lia)) as (z3 & -> & Z3 & M3).
    assert (PB : 0 <= p_I0 x * cos (p_t0 x) * p_brdf x).
    { apply (sized_pos (-60) 60) in Si. apply Rmult_le_pos; [apply Rmult_le_pos; lra|]. destruct Nb as (q & [K1 _] & ->). pose proof (sized_pos _ _ _ Sb). pose proof (exp_pos (- (k * eps))).
      apply Rmult_le_reg_r with q; lra. }
    assert (KE : 0 <= k * eps) by (apply Rmult_le_pos; lra).
    set (d := (7 + k + 6 * T) * eps). assert (D2 : near d ((1 - p_bsfr x) * (attenuation x * (p_I0 x * cos (p_t0 x) * p_brdf x))) z2) by (eapply near_weak; [exact M2|unfold d; lra]).
    assert (TP : 0 <= 6 * T * eps) by lra.
    assert (D3 : near d (p_bsfr x * (p_I0 x * cos (p_t0 x) * p_brdf x)) z3) by (eapply near_weak; [exact M3|unfold d; lra]).
    destruct (op_add L (-713) 120 d _ _ _ _ (sized_weak _ _ (-713) 120 _ Z2 ltac:(lia) ltac:(lia)) (sized_weak _ _ (-713) 120 _ Z3 ltac:(lia) ltac:(lia)) D2 D3
      ltac:(apply Rmult_le_pos; [lra|apply Rmult_le_pos; lra]) ltac:(apply Rmult_le_pos; lra) ltac:(lia) ltac:(lia) ltac:(lia)) as (z4 & -> & Z4 & M4).
    exists z4. split; [reflexivity|]. eapply near_weak; [exact M4|unfold d; lra].
  Qed.
End Bounds.

(** the derivatives with respect to tau and NormBRDF have relative errors of a few eps *)
Theorem C108_tau : forall L x srf k,
  good_exp L -> good_cos L (p_t0 x) -> good_cos L (p_tex x) -> in_range x -> 0 < cos (p_t0 x) -> 0 < cos (p_tex x) -> depth x <= 300 ->
  0 <= k <= 1000 -> near (k * eps) (p_brdf x) srf -> sized (-60) 60 srf ->
  let A := binary64 L in
  exists r D, g_dsurface_dtau A (Fin (p_I0 x)) (f_cos A (Fin (p_t0 x))) (f_cos A (Fin (p_tex x))) (Fin srf) (Fin (p_tau x)) (Fin (p_norm x)) (Fin (p_bsfr x)) = Fin r /\
    derivable_pt_lim (fun t => surface_value (set_tau x t)) (p_tau x) D /\
    Rabs (r - D) <= 2 * (12 + k + 6 * depth x) * eps * Rabs D.
Proof.
  intros L x srf k GE G0 G1 IR C0 C1 DT Hk Nb Sb A. destruct (dtau_near L x srf k GE G0 G1 IR C0 C1 DT Nb Sb) as (r & Er & N).
  exists (- r). eexists. split; [exact Er|]. split; [apply tau_derivative; lra|]. rewrite Rabs_Ropp.
  match type of N with near _ ?v _ => replace (- r - - v) with (- (r - v)) by ring end. rewrite Rabs_Ropp. pose proof (T_pos x IR C0 C1). apply (near_rel _ _ _ _ N); lra.
Qed.
Print Assumptions C108_tau.
Theorem C108_norm : forall L x srf k,
  good_exp L -> good_cos L (p_t0 x) -> good_cos L (p_tex x) -> in_range x -> 0 < cos (p_t0 x) -> 0 < cos (p_tex x) -> depth x <= 300 ->
  0 <= k <= 1000 -> near (k * eps) (p_brdf x) srf -> sized (-60) 60 srf ->
  let A := binary64 L in
  exists r D, g_dsurface_dnorm A (Fin (p_I0 x)) (f_cos A (Fin (p_t0 x))) (f_cos A (Fin (p_tex x))) (Fin srf) (Fin (p_tau x)) (Fin (p_bsfr x)) = Fin r /\
    derivable_pt_lim (fun t => surface_value (set_norm x t)) (p_norm x) D /\
    Rabs (r - D) <= 2 * (8 + k + 6 * depth x) * eps * Rabs D.
Proof.
  intros L x srf k GE G0 G1 IR C0 C1 DT Hk Nb Sb A. destruct (dnorm_near L x srf k GE G0 G1 IR C0 C1 DT Hk Nb Sb) as (r & Er & N).
  exists r. eexists. split; [exact Er|]. split; [apply norm_derivative|]. pose proof (T_pos x IR C0 C1). apply (near_rel _ _ _ _ N); lra.
Qed.
Print Assumptions C108_norm.

(** The derivative with respect to bsf.  Intended: the same relative error.  The code subtracts the attenuated from the bare contribution, so the
    relative error grows with 1/T and the derivative of a very thin layer is computed as 0. *)
Lemma sub_eq L u v : f_sub (binary64 L) (Fin u) (Fin v) = ieee (Fin (u - v)).
Proof. reflexivity. Qed.
Lemma dbsf_value L b e : generic_format radix2 b64 b -> 0 <= b <= two 900 -> 0 <= e <= 1 ->
  f_sub (binary64 L) (Fin b) (f_mul (binary64 L) (f_mul (binary64 L) (Fin e) (Fin b)) (f_num (binary64 L) 1)) = ieee (Fin (b - fl (e * b))) /\ 0 <= fl (e * b) <= b.
Proof.
  intros Fb Pb He. rewrite num_1.
  assert (Fl : fl b = b) by (apply round_generic; [apply valid_rnd_N|exact Fb]).
  assert (EB : 0 <= e * b <= b) by (split; [apply Rmult_le_pos; lra|]; rewrite <- (Rmult_1_l b) at 2; apply Rmult_le_compat_r; lra).
  assert (C : 0 <= fl (e * b) <= b) by (split; [rewrite <- fl_0; apply fl_le; lra|rewrite <- Fl at 2; apply fl_le; lra]).
  assert (E1 : f_mul (binary64 L) (Fin e) (Fin b) = Fin (fl (e * b))) by (cbn [f_mul binary64 xmul]; apply (ieee_fin _ 900); [lia|rewrite Rabs_pos_eq by lra; lra]).
  assert (E2 : f_mul (binary64 L) (Fin (fl (e * b))) (Fin 1) = Fin (fl (e * b))).
  { cbn [f_mul binary64 xmul]. rewrite Rmult_1_r. rewrite (ieee_fin _ 900) by (try lia; rewrite Rabs_pos_eq by lra; lra). f_equal. apply round_generic; [apply valid_rnd_N|].
    apply generic_format_round; [apply FLT_exp_valid, prec53|apply valid_rnd_N]. }
  split; [|exact C]. rewrite E1, E2. apply sub_eq.
Qed.
Lemma bare_format L i0 mu0 srf b : g_bare (binary64 L) i0 mu0 srf = Fin b -> generic_format radix2 b64 b.
Proof. exact (ieee_format _ _). Qed.
Theorem C108_bsf_partial : forall L x srf k,
  good_exp L -> good_cos L (p_t0 x) -> good_cos L (p_tex x) -> in_range x -> 0 < cos (p_t0 x) -> 0 < cos (p_tex x) -> two (-43) <= depth x <= 300 ->
  0 <= k <= 1000 -> near (k * eps) (p_brdf x) srf -> sized (-60) 60 srf ->
  let A := binary64 L in
  exists r D, g_dsurface_dbsf A (Fin (p_I0 x)) (f_cos A (Fin (p_t0 x))) (f_cos A (Fin (p_tex x))) (Fin srf) (Fin (p_tau x)) (Fin (p_norm x)) = Fin r /\
    derivable_pt_lim (fun t => surface_value (set_bsf x t)) (p_bsfr x) D /\
    Rabs (r - D) <= 2 * (29 + k + 8 / depth x) * eps * Rabs D.
Proof.
  intros L x srf k GE G0 G1 IR C0 C1 DT Hk Nb Sb A. pose proof eps_small as EP. pose proof (two_pos (-43)) as P43. pose proof (te x IR C0 C1) as TE.
  unfold A. clear A.
  destruct (cos_sized _ _ G0) as (m0 & -> & N0 & S0 & P0). destruct (cos_sized _ _ G1) as (m1 & -> & N1 & S1 & P1).
  set (A := binary64 L).
  destruct (atten_ok L x GE IR C0 C1 ltac:(lra) m0 m1 N0 S0 P0 N1 S1 P1) as (e & Ee & Ne & Se & _ & Be). destruct (bare_ok L x IR m0 srf _ N0 S0 Nb Sb) as (b & Eb & Sz & Nz).
  destruct IR as (_ & _ & _ & Sn & _).
  unfold g_dsurface_dbsf. fold A in Ee, Eb. rewrite Ee, Eb.
  assert (BB : 0 <= b <= two 900).
  { split; [now apply (sized_pos (-180) 120)|]. destruct Sz as [->|[_ B]]; [left; apply two_pos|]. assert (two 120 <= two 900) by (apply bpow_le; lia). lra. }
  destruct (dbsf_value L b e (bare_format _ _ _ _ _ Eb) BB Be) as [Ed Cd]. fold A in Ed. rewrite Ed. clear Ed.
  assert (AE : attenuation x = exp (- depth x)) by (unfold attenuation, depth; f_equal; ring).
  set (B := p_I0 x * cos (p_t0 x) * p_brdf x) in *. set (T := depth x) in *. set (a := attenuation x) in *.
  assert (P : 0 < a) by (rewrite AE; apply exp_pos).
  assert (TA : T * a <= 1 - a).
  { assert (E : a * exp T = 1) by (rewrite AE, <- exp_plus; replace (- T + T) with 0 by ring; apply exp_0).
    pose proof (Rmult_le_compat_l a _ _ (Rlt_le _ _ P) (exp_ineq1_le T)) as Q. lra. }
  assert (IT : 0 < / T <= two 43) by (split; [apply Rinv_0_lt_compat; lra|]; change 43%Z with (- (-43))%Z; rewrite bpow_opp; apply Rinv_le_contravar; [exact P43|apply DT]).
  assert (E43 : two 43 * eps = two (-9)) by (unfold eps; rewrite <- bpow_plus; reflexivity).
  assert (IE : 0 < / T * eps <= two (-9)) by (split; [apply Rmult_lt_0_compat; lra|rewrite <- E43; apply Rmult_le_compat_r; lra]).
  assert (ES : eps <= two (-40)) by (unfold eps; apply bpow_le; lia).
  assert (V9 : two (-9) = / 512) by reflexivity. assert (V40 : two (-40) = / 1099511627776) by reflexivity.
  assert (A1 : two (-44) <= 1 - a).
  { apply Rnot_lt_le. intros H. assert (T44 : two (-43) = 2 * two (-44)) by (change (-43)%Z with (1 + -44)%Z; rewrite bpow_plus; reflexivity).
    assert (U : two (-44) <= two (-9)) by (apply bpow_le; lia).
    assert (W : T * (1 - two (-44)) <= T * a) by (apply Rmult_le_compat_l; lra). assert (T * two (-44) <= T * (/ 512)) by (apply Rmult_le_compat_l; lra). lra. }
  assert (KE : 0 <= k * eps <= 1000 * eps) by (split; [apply Rmult_le_pos; lra|apply Rmult_le_compat_r; lra]).
  set (c := 29 + k + 8 / T).
  assert (CE : c * eps = 29 * eps + k * eps + 8 * (/ T * eps)) by (unfold c, Rdiv; ring).
  assert (N : exists z, f_mul A (Fin (p_norm x)) (ieee (Fin (b - fl (e * b)))) = Fin z /\ near (c * eps) (p_norm x * (B * (1 - a))) z).
  { destruct (Req_dec b 0) as [Zb|Zb].
    - pose proof (near_zero _ _ _ Nz Zb) as ZB. exists 0. rewrite Zb, Rmult_0_r, fl_0, Rminus_0_r, ZB, Rmult_0_l, Rmult_0_r.
      assert (I0 : ieee (Fin 0) = Fin 0) by (rewrite (ieee_fin _ 0) by (try lia; rewrite Rabs_R0, two_0; lra); now rewrite fl_0).
      rewrite I0. cbn [f_mul A binary64 xmul]. rewrite Rmult_0_r, I0. split; [reflexivity|]. eapply near_weak; [apply near_refl|]. lra.
    - destruct Sz as [?|Sz]; [contradiction|]. pose proof (two_pos (-180)) as P180. assert (Pb : 0 < b) by lra.
      assert (NC : near eps (e * b) (fl (e * b))).
      { apply (fl_near (-660) 120); [lia|]. replace (-660)%Z with (-480 + -180)%Z by lia. replace 120%Z with (0 + 120)%Z by lia. apply sized_mul; [exact Se|right; exact Sz]. }
      destruct NC as (q & Kq & Eq). rewrite Eq in *. set (e' := e * q) in *.
      assert (Ne' : near ((2 + 6 * T) * eps) a e').
      { eapply near_weak; [eapply near_trans; [exact Ne|exists q; split; [exact Kq|reflexivity]]|]. lra. }
      apply near_bound in Ne'. rewrite (Rabs_pos_eq a) in Ne' by lra.
      assert (TEP : 0 <= T * eps <= 300 * eps) by (split; [apply Rmult_le_pos; lra|apply Rmult_le_compat_r; lra]).
      pose proof (exp_lin ((2 + 6 * T) * eps) ltac:(lra)) as L2.
      assert (X : Rabs ((1 - e') - (1 - a)) <= (4 * (/ T * eps) + 12 * eps) * (1 - a)).
      { replace (1 - e' - (1 - a)) with (- (e' - a)) by ring. rewrite Rabs_Ropp. eapply Rle_trans; [exact Ne'|].
        apply Rle_trans with ((2 * ((2 + 6 * T) * eps)) * a); [apply Rmult_le_compat_r; lra|].
        replace (2 * ((2 + 6 * T) * eps) * a) with ((4 * (/ T * eps) + 12 * eps) * (T * a)) by (field; lra). apply Rmult_le_compat_l; lra. }
      pose proof (two_pos (-44)) as P44.
      pose proof (ratio_near (1 - e') (1 - a) (4 * (/ T * eps) + 12 * eps) ltac:(lra) ltac:(lra) X) as NX.
      assert (LO : two (-45) <= 1 - e').
      { apply Rabs_le_between in X. assert ((4 * (/ T * eps) + 12 * eps) * (1 - a) <= / 2 * (1 - a)) by (apply Rmult_le_compat_r; lra).
        assert (two (-44) = 2 * two (-45)) by (change (-44)%Z with (1 + -45)%Z; rewrite bpow_plus; reflexivity). lra. }
      replace (b - e * b * q) with (b * (1 - e')) by (unfold e'; ring).
      assert (HI : 1 - e' <= 1) by (assert (0 <= e'); [|lra]; unfold e'; apply Rmult_le_pos; [lra|]; pose proof (exp_pos (- eps)); lra).
      assert (Sd : sized (-180 + -45) (120 + 0) (b * (1 - e'))) by (apply sized_mul; [right; exact Sz|right; rewrite two_0; lra]).
      destruct (op_round (-180 + -45) (120 + 0) _ ltac:(lia) ltac:(lia) ltac:(lia) Sd) as (z & -> & Zz & Mz).
      pose proof (near_trans _ _ _ _ _ (near_mul _ _ _ _ _ _ Nz NX) Mz) as M.
      destruct (op_mul L _ _ _ _ 0 _ _ _ _ _ Sn Zz (near_refl _) M ltac:(lia) ltac:(lia) ltac:(lia)) as (r & Er & _ & Mr).
      exists r. split; [exact Er|]. eapply near_weak; [exact Mr|]. rewrite CE. lra. }
  destruct N as (r & -> & N). exists r. eexists. split; [reflexivity|]. split; [apply bsf_derivative|]. fold B a.
  apply near_bound in N. eapply Rle_trans; [exact N|]. apply Rmult_le_compat_r; [apply Rabs_pos|]. fold c. replace (2 * c * eps) with (2 * (c * eps)) by ring. apply exp_lin. rewrite CE. lra.
Qed.
Print Assumptions C108_bsf_partial.
Lemma thin_one L x m0 m1 : rounded_exp L -> in_range x -> 0 < cos (p_t0 x) -> 0 < cos (p_tex x) ->
  near eps (cos (p_t0 x)) m0 -> sized (-60) 0 m0 -> 0 < m0 -> near eps (cos (p_tex x)) m1 -> sized (-60) 0 m1 -> 0 < m1 ->
  0 < depth x <= two (-57) -> g_atten (binary64 L) (Fin (p_tau x)) (Fin m0) (Fin m1) = Fin 1.
Proof.
  intros RE IR C0 C1 N0 S0 P0 N1 S1 P1 DT. pose proof eps_small as EP. destruct (arg_ok L x IR C0 C1 m0 m1 N0 S0 P0 N1 S1 P1) as (S & Es & Ns & _).
  assert (SB : 0 <= S <= two (-56)).
  { split; [apply (near_pos _ _ _ Ns); lra|]. apply near_bound in Ns. rewrite (Rabs_pos_eq (depth x)) in Ns by lra. apply Rabs_le_between in Ns.
    assert ((exp (3 * eps) - 1) * depth x <= 1 * depth x) by (apply Rmult_le_compat_r; [lra|]; pose proof (exp_lin (3 * eps) ltac:(lra)); lra).
    assert (two (-56) = 2 * two (-57)) by (change (-56)%Z with (1 + -57)%Z; rewrite bpow_plus; reflexivity). lra. }
  unfold g_atten. rewrite Es. cbn [f_exp binary64]. rewrite RE. assert (U : exp (- S) <= 1) by (rewrite <- exp_0; apply exp_le; lra).
  assert (X : fl (exp (- S)) = 1) by (apply fl_one; pose proof (exp_ineq1_le (- S)); assert (two (-56) <= two (-55)) by (apply bpow_le; lia); lra).
  rewrite (ieee_fin _ 0), X by (try lia; rewrite Rabs_pos_eq by (left; apply exp_pos); rewrite two_0; exact U). reflexivity.
Qed.
Theorem C108_bsf_refuted : forall L x srf db,
  rounded_exp L -> good_cos L (p_t0 x) -> good_cos L (p_tex x) -> in_range x -> 0 < cos (p_t0 x) -> 0 < cos (p_tex x) -> 0 < depth x <= two (-57) ->
  near db (p_brdf x) srf -> sized (-60) 60 srf -> 0 < p_norm x * p_I0 x * p_brdf x ->
  let A := binary64 L in
  g_dsurface_dbsf A (Fin (p_I0 x)) (f_cos A (Fin (p_t0 x))) (f_cos A (Fin (p_tex x))) (Fin srf) (Fin (p_tau x)) (Fin (p_norm x)) = Fin 0 /\
  exists D, derivable_pt_lim (fun t => surface_value (set_bsf x t)) (p_bsfr x) D /\ 0 < D.
Proof.
  intros L x srf db RE G0 G1 IR C0 C1 DT Nb Sb PP A. pose proof eps_small as EP.
  unfold A. clear A.
  destruct (cos_sized _ _ G0) as (m0 & -> & N0 & S0 & P0). destruct (cos_sized _ _ G1) as (m1 & -> & N1 & S1 & P1).
  set (A := binary64 L).
  split.
  - destruct (bare_ok L x IR m0 srf _ N0 S0 Nb Sb) as (b & Eb & Sz & Nz). unfold g_dsurface_dbsf. fold A in Eb. rewrite Eb. pose proof (thin_one L x m0 m1 RE IR C0 C1 N0 S0 P0 N1 S1 P1 DT) as Ea. fold A in Ea. rewrite Ea.
    assert (BB : 0 <= b <= two 900).
    { split; [now apply (sized_pos (-180) 120)|]. destruct Sz as [->|[_ B]]; [left; apply two_pos|]. assert (two 120 <= two 900) by (apply bpow_le; lia). lra. }
    destruct (dbsf_value L b 1 (bare_format _ _ _ _ _ Eb) BB ltac:(lra)) as [Ed Cd]. fold A in Ed. rewrite Ed.
    rewrite Rmult_1_l. assert (Fl : fl b = b) by (apply round_generic; [apply valid_rnd_N|exact (bare_format _ _ _ _ _ Eb)]). rewrite Fl. replace (b - b) with 0 by ring.
    assert (I0 : ieee (Fin 0) = Fin 0) by (rewrite (ieee_fin _ 0) by (try lia; rewrite Rabs_R0, two_0; lra); now rewrite fl_0).
    rewrite I0. cbn [f_mul A binary64 xmul]. rewrite Rmult_0_r. exact I0.
  - eexists. split; [apply bsf_derivative|]. assert (attenuation x < 1) by (unfold attenuation; rewrite <- exp_0; apply exp_increasing; unfold depth in DT; lra).
    replace (p_norm x * (p_I0 x * cos (p_t0 x) * p_brdf x * (1 - attenuation x))) with (p_norm x * p_I0 x * p_brdf x * (cos (p_t0 x) * (1 - attenuation x))) by ring.
    apply Rmult_lt_0_compat; [exact PP|]. apply Rmult_lt_0_compat; lra.
Qed.
Print Assumptions C108_bsf_refuted.

(** the layers of optical depth 4 and 2^-58 of Properties35.v *)
Example C108_nonvacuous :
  (let x := layer 1 in let A := binary64 lib_ex in
   (exists r D, g_dsurface_dtau A (Fin (p_I0 x)) (f_cos A (Fin (p_t0 x))) (f_cos A (Fin (p_tex x))) (Fin (1 / 4)) (Fin (p_tau x)) (Fin (p_norm x)) (Fin (p_bsfr x)) = Fin r /\
     derivable_pt_lim (fun t => surface_value (set_tau x t)) (p_tau x) D /\ Rabs (r - D) <= 2 * (12 + 0 + 6 * 4) * eps * Rabs D) /\
   (exists r D, g_dsurface_dbsf A (Fin (p_I0 x)) (f_cos A (Fin (p_t0 x))) (f_cos A (Fin (p_tex x))) (Fin (1 / 4)) (Fin (p_tau x)) (Fin (p_norm x)) = Fin r /\
     derivable_pt_lim (fun t => surface_value (set_bsf x t)) (p_bsfr x) D /\ Rabs (r - D) <= 2 * (29 + 0 + 8 / 4) * eps * Rabs D)) /\
  (let x := layer (two (-60)) in let A := binary64 lib_ex in
   g_dsurface_dbsf A (Fin (p_I0 x)) (f_cos A (Fin (p_t0 x))) (f_cos A (Fin (p_tex x))) (Fin (1 / 4)) (Fin (p_tau x)) (Fin (p_norm x)) = Fin 0 /\
   exists D, derivable_pt_lim (fun t => surface_value (set_bsf x t)) (p_bsfr x) D /\ 0 < D).
Proof.
  split; intros x A.
  - destruct (layer_ok 0 ltac:(lia)) as (RE & G & IR & C & N & Sb & _ & _ & D & _). rewrite two_0 in *. change (two (0 + 2)) with 4 in D. fold x in IR, D.
    assert (B : two (-43) <= two 0) by (apply bpow_le; lia). rewrite two_0 in B. split.
    + pose proof (C108_tau lib_ex x (1 / 4) 0 (rounded_good _ RE) G G IR C C ltac:(lra) ltac:(lra) N Sb) as K. rewrite D in K. exact K.
    + pose proof (C108_bsf_partial lib_ex x (1 / 4) 0 (rounded_good _ RE) G G IR C C ltac:(lra) ltac:(lra) N Sb) as K. rewrite D in K. exact K.
  - destruct (layer_ok (-60) ltac:(lia)) as (RE & G & IR & C & N & Sb & _ & _ & D & _). fold x in IR, D.
    apply (C108_bsf_refuted lib_ex x (1 / 4) _ RE G G IR C C ltac:(rewrite D; split; [apply two_pos|apply bpow_le; lia]) N Sb). cbn. lra.
Qed.
