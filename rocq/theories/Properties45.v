(** Rounding errors of the derivatives of the volume contribution: C109. *)
From Flocq Require Import Core Relative.
From Coquelicot Require Import Coquelicot.
From Coq Require Import ZArith Reals Lra Lia List.
From Verif Require Import Spec Float Jacobian.
From Verif Require Import Elem Properties35 Properties42 Properties44.
Open Scope R_scope.

(** ** Model: the derivatives in program order, over an arbitrary arithmetic.
    _dvolume_dtau is left out: its formula is wrong already in exact arithmetic (C35). *)
Section Derivatives.
  Context (A : arith).
  Notation "1" := (f_num A 1).
  (** _calc.py:1177-1183 _dvolume_domega, from the values of mu_0, mu_ex and V.calc *)
  Definition g_dvolume_domega (i0 mu0 muex tau v bsf : xr) : xr :=
    f_mul A (f_sub A 1 bsf)
      (f_mul A (f_mul A (f_div A (f_mul A i0 mu0) (f_add A mu0 muex)) (f_sub A 1 (g_atten A tau mu0 muex))) v).
  (** _calc.py:1195-1207 _dvolume_dbsf *)
  Definition g_dvolume_dbsf (i0 om mu0 muex tau v : xr) : xr := f_neg A (g_vol A i0 om mu0 muex tau v).
End Derivatives.

(** with exact arithmetic these are the elements of the derivatives of Jacobian.v *)
Lemma exact_domega i0 mu0 muex tau v bsf a i : k_dvolume_domega i0 mu0 muex tau v bsf = Ok a ->
  bget a i = g_dvolume_domega exact (bget i0 i) (bget mu0 i) (bget muex i) (bget tau i) (bget v i) (bget bsf i).
Proof. unfold k_dvolume_domega, k_atten. kernel. unfold nexp, nneg. repeat (progress (bg; unfold nexp, nneg; rewrite ?bget_map1, ?bget_scalar)). reflexivity. Qed.
Lemma exact_dvbsf i0 om mu0 muex tau v a i : k_dvolume_dbsf i0 om mu0 muex tau v = Ok a ->
  bget a i = g_dvolume_dbsf exact (bget i0 i) (bget om i) (bget mu0 i) (bget muex i) (bget tau i) (bget v i).
Proof. unfold k_dvolume_dbsf, k_vol, k_atten. kernel. unfold nexp, nneg. repeat (progress (bg; unfold nexp, nneg; rewrite ?bget_map1, ?bget_scalar)). reflexivity. Qed.

(** ** Specification *)
Definition set_omega (x : point) (t : R) : point :=
  mk_point (p_I0 x) (p_t0 x) (p_tex x) (p_tau x) t (p_norm x) (p_bsfr x) (p_vol x) (p_brdf x).
Lemma omega_derivative x : cos (p_t0 x) + cos (p_tex x) <> 0 -> derivable_pt_lim (fun t => volume_value (set_omega x t)) (p_omega x)
    ((1 - p_bsfr x) * (p_I0 x * cos (p_t0 x) / (cos (p_t0 x) + cos (p_tex x)) * (1 - attenuation x) * p_vol x)).
Proof.
  intros N. apply is_derive_Reals. unfold volume_value, attenuation, set_omega. cbn [p_I0 p_t0 p_tex p_tau p_omega p_norm p_bsfr p_vol].
  auto_derive; [tauto|]. now field.
Qed.
Lemma vbsf_derivative x : cos (p_t0 x) + cos (p_tex x) <> 0 -> derivable_pt_lim (fun t => volume_value (set_bsf x t)) (p_bsfr x)
    (- (p_I0 x * p_omega x * cos (p_t0 x) / (cos (p_t0 x) + cos (p_tex x)) * (1 - attenuation x) * p_vol x)).
Proof.
  intros N. apply is_derive_Reals. unfold volume_value, attenuation, set_bsf. cbn [p_I0 p_t0 p_tex p_tau p_omega p_norm p_bsfr p_vol].
  auto_derive; [tauto|]. now field.
Qed.

(** *** C109.  Rounding errors of the derivatives of the volume contribution.
    Intended: relative errors bounded by a multiple of eps.  The code computes 1 - exp(-T), so the bound grows with 1/T and the
    derivatives of a very thin layer are computed as 0. *)
Section Bounds.
  Context (L : libm) (x : point) (v k : R).
  Hypothesis (GE : good_exp L) (G0 : good_cos L (p_t0 x)) (G1 : good_cos L (p_tex x)) (IR : in_range x).
  Hypothesis (C0 : 0 < cos (p_t0 x)) (C1 : 0 < cos (p_tex x)) (DT : two (-43) <= depth x <= 300) (Hk : 0 <= k <= 1000).
  Hypothesis (Nv : near (k * eps) (p_vol x) v) (Sv : sized (-60) 60 v).
  Notation A := (binary64 L).
  Notation T := (depth x).
  Lemma inv_depth : 0 < / T * eps <= / 512.
  Proof.
    pose proof eps_small as EP. pose proof (two_pos (-43)) as P43.
    assert (IT : 0 < / T <= two 43) by (split; [apply Rinv_0_lt_compat; lra|]; change 43%Z with (- (-43))%Z; rewrite bpow_opp; apply Rinv_le_contravar; [exact P43|apply DT]).
    assert (E43 : two 43 * eps = two (-9)) by (unfold eps; rewrite <- bpow_plus; reflexivity).
    split; [apply Rmult_lt_0_compat; lra|]. change (/ 512) with (two (-9)). rewrite <- E43. apply Rmult_le_compat_r; lra.
  Qed.
  Lemma near_depth c d w z : near d w z -> d <= c * eps + k * eps + 4 * (/ T * eps) -> 0 <= c <= 100 ->
    Rabs (z - w) <= 2 * (c + k + 4 / T) * eps * Rabs w.
  Proof.
    intros N D C. pose proof eps_small as EP. pose proof inv_depth as IE.
    assert (ES : eps <= two (-40)) by (unfold eps; apply bpow_le; lia). assert (V40 : two (-40) = / 1099511627776) by reflexivity.
    assert (KE : 0 <= k * eps <= 1000 * eps) by (split; [apply Rmult_le_pos; lra|apply Rmult_le_compat_r; lra]).
    assert (CE : 0 <= c * eps <= 100 * eps) by (split; [apply Rmult_le_pos; lra|apply Rmult_le_compat_r; lra]).
    apply (near_weak _ _ _ _ N) in D. apply near_bound in D. eapply Rle_trans; [exact D|]. apply Rmult_le_compat_r; [apply Rabs_pos|].
    replace (2 * (c + k + 4 / T) * eps) with (2 * (c * eps + k * eps + 4 * (/ T * eps))) by (unfold Rdiv; ring). apply exp_lin. lra.
  Qed.
  (** 1 - exp(-T) *)
  Lemma loss_near m0 m1 : near eps (cos (p_t0 x)) m0 -> sized (-60) 0 m0 -> 0 < m0 -> near eps (cos (p_tex x)) m1 -> sized (-60) 0 m1 -> 0 < m1 ->
    exists z, f_sub A (f_num A 1) (g_atten A (Fin (p_tau x)) (Fin m0) (Fin m1)) = Fin z /\ sized (-53) 0 z /\
      near (25 * eps + 4 * (/ T * eps)) (1 - attenuation x) z.
  Proof.
    intros N0 S0 P0 N1 S1 P1. pose proof eps_small as EP. pose proof (two_pos (-43)) as P43. pose proof inv_depth as IE. pose proof (te x IR C0 C1) as TE.
    destruct (atten_ok L x GE IR C0 C1 ltac:(lra) m0 m1 N0 S0 P0 N1 S1 P1) as (e & -> & Ne & Se & Fe & Be).
    destruct (op_one L e Be Fe) as (z & Ez & Sz & Nz). exists z. split; [exact Ez|]. split; [exact Sz|].
    assert (AE : attenuation x = exp (- T)) by (unfold attenuation, depth; f_equal; ring). set (a := attenuation x) in *.
    assert (P : 0 < a) by (rewrite AE; apply exp_pos).
    assert (TA : T * a <= 1 - a).
    { assert (E : a * exp T = 1) by (rewrite AE, <- exp_plus; replace (- T + T) with 0 by ring; apply exp_0).
      pose proof (Rmult_le_compat_l a _ _ (Rlt_le _ _ P) (exp_ineq1_le T)) as Q. lra. }
    assert (ES : eps <= two (-40)) by (unfold eps; apply bpow_le; lia). assert (V40 : two (-40) = / 1099511627776) by reflexivity.
    assert (Ne' : near ((1 + 6 * T) * eps) a e) by (eapply near_weak; [exact Ne|lra]).
    assert (TEP : 0 <= T * eps <= 300 * eps) by (split; [apply Rmult_le_pos; lra|apply Rmult_le_compat_r; lra]).
    apply near_bound in Ne'. rewrite (Rabs_pos_eq a) in Ne' by lra. pose proof (exp_lin ((1 + 6 * T) * eps) ltac:(lra)) as L2.
    assert (X : Rabs ((1 - e) - (1 - a)) <= (2 * (/ T * eps) + 12 * eps) * (1 - a)).
    { replace (1 - e - (1 - a)) with (- (e - a)) by ring. rewrite Rabs_Ropp. eapply Rle_trans; [exact Ne'|].
      apply Rle_trans with ((2 * ((1 + 6 * T) * eps)) * a); [apply Rmult_le_compat_r; lra|].
      replace (2 * ((1 + 6 * T) * eps) * a) with ((2 * (/ T * eps) + 12 * eps) * (T * a)) by (field; lra). apply Rmult_le_compat_l; lra. }
    assert (A1 : 0 < 1 - a) by (assert (0 < T * a) by (apply Rmult_lt_0_compat; lra); lra).
    pose proof (ratio_near _ _ (2 * (/ T * eps) + 12 * eps) A1 ltac:(lra) X) as NX.
    eapply near_weak; [exact (near_trans _ _ _ _ _ NX Nz)|]. lra.
  Qed.
  Lemma sum_near m0 m1 : near eps (cos (p_t0 x)) m0 -> sized (-60) 0 m0 -> near eps (cos (p_tex x)) m1 -> sized (-60) 0 m1 ->
    exists s, f_add A (Fin m0) (Fin m1) = Fin s /\ sized (-60) 1 s /\ near (2 * eps) (cos (p_t0 x) + cos (p_tex x)) s /\ s <> 0.
  Proof.
    intros N0 S0 N1 S1. pose proof eps_small as EP.
    destruct (op_add L (-60) 0 eps _ _ _ _ S0 S1 N0 N1 ltac:(lra) ltac:(lra) ltac:(lia) ltac:(lia) ltac:(lia)) as (s & -> & Z & M).
    exists s. split; [reflexivity|]. split; [exact Z|]. split; [eapply near_weak; [exact M|lra]|]. intros W. pose proof (near_zero _ _ _ M W). lra.
  Qed.
  Lemma domega_near :
    exists r, g_dvolume_domega A (Fin (p_I0 x)) (f_cos A (Fin (p_t0 x))) (f_cos A (Fin (p_tex x))) (Fin (p_tau x)) (Fin v) (Fin (p_bsfr x)) = Fin r /\
      near (34 * eps + k * eps + 4 * (/ T * eps)) ((1 - p_bsfr x) * (p_I0 x * cos (p_t0 x) / (cos (p_t0 x) + cos (p_tex x)) * (1 - attenuation x) * p_vol x)) r.
  Proof.
    destruct (cos_sized _ _ G0) as (m0 & -> & N0 & S0 & P0). destruct (cos_sized _ _ G1) as (m1 & -> & N1 & S1 & P1). pose proof eps_small as EP.
    destruct (loss_near m0 m1 N0 S0 P0 N1 S1 P1) as (z5 & E5 & Z5 & M5). destruct (sum_near m0 m1 N0 S0 N1 S1) as (z3 & E3 & Z3 & M3 & Y).
    destruct (one_bsf L x IR) as (ob & Eo & So & No & _). destruct IR as (Si & _).
    unfold g_dvolume_domega. rewrite E5, E3, Eo.
    destruct (op_mul L _ _ _ _ 0 _ _ _ _ _ Si S0 (near_refl _) N0 ltac:(lia) ltac:(lia) ltac:(lia)) as (z1 & -> & Z1 & M1).
    destruct (op_div L _ _ _ _ _ _ _ _ _ _ Z1 Z3 M1 M3 Y ltac:(lia) ltac:(lia) ltac:(lia)) as (z4 & -> & Z4 & M4).
    destruct (op_mul L _ _ _ _ _ _ _ _ _ _ Z4 Z5 M4 M5 ltac:(lia) ltac:(lia) ltac:(lia)) as (z6 & -> & Z6 & M6).
    destruct (op_mul L _ _ _ _ _ _ _ _ _ _ Z6 Sv M6 Nv ltac:(lia) ltac:(lia) ltac:(lia)) as (z7 & -> & Z7 & M7).
    destruct (op_mul L _ _ _ _ _ _ _ _ _ _ So Z7 No M7 ltac:(lia) ltac:(lia) ltac:(lia)) as (z8 & E8 & Z8 & M8).
    exists z8. split; [exact E8|]. eapply near_weak; [exact M8|]. lra.
  Qed.
  Lemma dvbsf_near :
    exists r, g_dvolume_dbsf A (Fin (p_I0 x)) (Fin (p_omega x)) (f_cos A (Fin (p_t0 x))) (f_cos A (Fin (p_tex x))) (Fin (p_tau x)) (Fin v) = Fin (- r) /\
      near (33 * eps + k * eps + 4 * (/ T * eps)) (p_I0 x * p_omega x * cos (p_t0 x) / (cos (p_t0 x) + cos (p_tex x)) * (1 - attenuation x) * p_vol x) r.
  Proof.
    destruct (cos_sized _ _ G0) as (m0 & -> & N0 & S0 & P0). destruct (cos_sized _ _ G1) as (m1 & -> & N1 & S1 & P1). pose proof eps_small as EP.
    destruct (loss_near m0 m1 N0 S0 P0 N1 S1 P1) as (z5 & E5 & Z5 & M5). destruct (sum_near m0 m1 N0 S0 N1 S1) as (z3 & E3 & Z3 & M3 & Y).
    destruct IR as (Si & _ & Sw & _). unfold g_dvolume_dbsf, g_vol. rewrite E5, E3.
    destruct (op_mul L _ _ _ _ 0 0 _ _ _ _ Si Sw (near_refl _) (near_refl _) ltac:(lia) ltac:(lia) ltac:(lia)) as (z1 & -> & Z1 & M1).
    destruct (op_mul L _ _ _ _ _ _ _ _ _ _ Z1 S0 M1 N0 ltac:(lia) ltac:(lia) ltac:(lia)) as (z2 & -> & Z2 & M2).
    destruct (op_div L _ _ _ _ _ _ _ _ _ _ Z2 Z3 M2 M3 Y ltac:(lia) ltac:(lia) ltac:(lia)) as (z4 & -> & Z4 & M4).
    destruct (op_mul L _ _ _ _ _ _ _ _ _ _ Z4 Z5 M4 M5 ltac:(lia) ltac:(lia) ltac:(lia)) as (z6 & -> & Z6 & M6).
    destruct (op_mul L _ _ _ _ _ _ _ _ _ _ Z6 Sv M6 Nv ltac:(lia) ltac:(lia) ltac:(lia)) as (z7 & -> & Z7 & M7).
    exists z7. split; [reflexivity|]. eapply near_weak; [exact M7|]. lra.
  Qed.
End Bounds.

Theorem C109_omega_partial : forall L x v k,
  good_exp L -> good_cos L (p_t0 x) -> good_cos L (p_tex x) -> in_range x -> 0 < cos (p_t0 x) -> 0 < cos (p_tex x) -> two (-43) <= depth x <= 300 ->
  0 <= k <= 1000 -> near (k * eps) (p_vol x) v -> sized (-60) 60 v ->
  let A := binary64 L in
  exists r D, g_dvolume_domega A (Fin (p_I0 x)) (f_cos A (Fin (p_t0 x))) (f_cos A (Fin (p_tex x))) (Fin (p_tau x)) (Fin v) (Fin (p_bsfr x)) = Fin r /\
    derivable_pt_lim (fun t => volume_value (set_omega x t)) (p_omega x) D /\
    Rabs (r - D) <= 2 * (34 + k + 4 / depth x) * eps * Rabs D.
Proof.
  intros L x v k GE G0 G1 IR C0 C1 DT Hk Nv Sv A. destruct (domega_near L x v k GE G0 G1 IR C0 C1 DT Nv Sv) as (r & Er & N).
  exists r. eexists. split; [exact Er|]. split; [apply omega_derivative; lra|]. apply (near_depth x k DT Hk _ _ _ _ N); lra.
Qed.
Print Assumptions C109_omega_partial.
Theorem C109_bsf_partial : forall L x v k,
  good_exp L -> good_cos L (p_t0 x) -> good_cos L (p_tex x) -> in_range x -> 0 < cos (p_t0 x) -> 0 < cos (p_tex x) -> two (-43) <= depth x <= 300 ->
  0 <= k <= 1000 -> near (k * eps) (p_vol x) v -> sized (-60) 60 v ->
  let A := binary64 L in
  exists r D, g_dvolume_dbsf A (Fin (p_I0 x)) (Fin (p_omega x)) (f_cos A (Fin (p_t0 x))) (f_cos A (Fin (p_tex x))) (Fin (p_tau x)) (Fin v) = Fin r /\
    derivable_pt_lim (fun t => volume_value (set_bsf x t)) (p_bsfr x) D /\
    Rabs (r - D) <= 2 * (33 + k + 4 / depth x) * eps * Rabs D.
Proof.
  intros L x v k GE G0 G1 IR C0 C1 DT Hk Nv Sv A. destruct (dvbsf_near L x v k GE G0 G1 IR C0 C1 DT Nv Sv) as (r & Er & N).
  exists (- r). eexists. split; [exact Er|]. split; [apply vbsf_derivative; lra|]. rewrite Rabs_Ropp.
  match type of N with near _ ?w _ => replace (- r - - w) with (- (r - w)) by ring end. rewrite Rabs_Ropp. apply (near_depth x k DT Hk _ _ _ _ N); lra.
Qed.
Print Assumptions C109_bsf_partial.

(** For all optical depths up to 300, thin layers included: the error relative to the derivative of an infinitely deep layer. *)
Lemma deep_omega_derivative x : cos (p_t0 x) + cos (p_tex x) <> 0 -> derivable_pt_lim (fun t => deep_value (set_omega x t)) (p_omega x)
    ((1 - p_bsfr x) * (p_I0 x * cos (p_t0 x) / (cos (p_t0 x) + cos (p_tex x)) * p_vol x)).
Proof.
  intros N. apply is_derive_Reals. unfold deep_value, set_omega. cbn [p_I0 p_t0 p_tex p_tau p_omega p_norm p_bsfr p_vol].
  auto_derive; [tauto|]. now field.
Qed.
Lemma deep_bsf_derivative x : cos (p_t0 x) + cos (p_tex x) <> 0 -> derivable_pt_lim (fun t => deep_value (set_bsf x t)) (p_bsfr x)
    (- (p_I0 x * p_omega x * cos (p_t0 x) / (cos (p_t0 x) + cos (p_tex x)) * p_vol x)).
Proof.
  intros N. apply is_derive_Reals. unfold deep_value, set_bsf. cbn [p_I0 p_t0 p_tex p_tau p_omega p_norm p_bsfr p_vol].
  auto_derive; [tauto|]. now field.
Qed.
Lemma absolute c T a e K r : 0 <= c <= 1500 -> 0 <= T <= 300 -> 0 <= a -> 0 <= e <= 1 -> near ((1 + 6 * T) * eps) a e -> near (c * eps) (K * (1 - e)) r ->
  Rabs (r - K * (1 - a)) <= 2 * (c + (1 + 6 * T) * a) * eps * Rabs K.
Proof.
  intros Hc HT Ha He Ne N. pose proof (small c ltac:(lra)) as B1. pose proof (small (1 + 6 * T) ltac:(lra)) as B2.
  apply near_bound in Ne. apply near_bound in N. rewrite (Rabs_pos_eq a) in Ne by lra. rewrite Rabs_mult, (Rabs_pos_eq (1 - e)) in N by lra.
  pose proof (exp_lin (c * eps) ltac:(lra)) as L1. pose proof (exp_lin ((1 + 6 * T) * eps) ltac:(lra)) as L2. pose proof (exp_ineq1_le (c * eps)) as L3. pose proof (Rabs_pos K) as PK.
  assert (X0 : (exp (c * eps) - 1) * (Rabs K * (1 - e)) <= (2 * (c * eps)) * Rabs K).
  { apply Rmult_le_compat; [lra|apply Rmult_le_pos; lra|exact L1|]. rewrite <- (Rmult_1_r (Rabs K)) at 2. apply Rmult_le_compat_l; lra. }
  assert (X1 : Rabs (e - a) <= 2 * ((1 + 6 * T) * eps) * a) by (eapply Rle_trans; [exact Ne|]; apply Rmult_le_compat_r; lra).
  pose proof (Rmult_le_compat_l _ _ _ PK X1) as X2.
  replace (r - K * (1 - a)) with ((r - K * (1 - e)) + K * (a - e)) by ring.
  eapply Rle_trans; [apply Rabs_triang|]. rewrite Rabs_mult, (Rabs_minus_sym a e). lra.
Qed.
Theorem C109_all_depths : forall L x v k,
  good_exp L -> good_cos L (p_t0 x) -> good_cos L (p_tex x) -> in_range x -> 0 < cos (p_t0 x) -> 0 < cos (p_tex x) -> depth x <= 300 ->
  0 <= k <= 1000 -> near (k * eps) (p_vol x) v -> sized (-60) 60 v ->
  let A := binary64 L in
  (exists r D Dd, g_dvolume_domega A (Fin (p_I0 x)) (f_cos A (Fin (p_t0 x))) (f_cos A (Fin (p_tex x))) (Fin (p_tau x)) (Fin v) (Fin (p_bsfr x)) = Fin r /\
    derivable_pt_lim (fun t => volume_value (set_omega x t)) (p_omega x) D /\ derivable_pt_lim (fun t => deep_value (set_omega x t)) (p_omega x) Dd /\
    Rabs (r - D) <= 2 * (10 + k + (1 + 6 * depth x) * attenuation x) * eps * Rabs Dd) /\
  exists r D Dd, g_dvolume_dbsf A (Fin (p_I0 x)) (Fin (p_omega x)) (f_cos A (Fin (p_t0 x))) (f_cos A (Fin (p_tex x))) (Fin (p_tau x)) (Fin v) = Fin r /\
    derivable_pt_lim (fun t => volume_value (set_bsf x t)) (p_bsfr x) D /\ derivable_pt_lim (fun t => deep_value (set_bsf x t)) (p_bsfr x) Dd /\
    Rabs (r - D) <= 2 * (9 + k + (1 + 6 * depth x) * attenuation x) * eps * Rabs Dd.
Proof.
  intros L x v k GE G0 G1 IR C0 C1 DT Hk Nv Sv A. unfold A. clear A. pose proof eps_small as EP. pose proof (te x IR C0 C1) as TE. pose proof (T_pos x IR C0 C1) as TP.
  assert (PA : 0 <= attenuation x) by (left; apply exp_pos).
  destruct (cos_sized _ _ G0) as (m0 & -> & N0 & S0 & P0). destruct (cos_sized _ _ G1) as (m1 & -> & N1 & S1 & P1).
  destruct (atten_ok L x GE IR C0 C1 DT m0 m1 N0 S0 P0 N1 S1 P1) as (e & Ee & Ne & Se & Fe & Be). destruct (op_one L e Be Fe) as (z5 & E5 & Z5 & M5).
  assert (Ne' : near ((1 + 6 * depth x) * eps) (attenuation x) e) by (eapply near_weak; [exact Ne|lra]).
  destruct (sum_near L x C0 C1 m0 m1 N0 S0 N1 S1) as (z3 & E3 & Z3 & M3 & Y). destruct (one_bsf L x IR) as (ob & Eo & So & No & _). destruct IR as (Si & _ & Sw & _). split.
  - unfold g_dvolume_domega. rewrite Ee, E5, E3, Eo.
    destruct (op_mul L _ _ _ _ 0 _ _ _ _ _ Si S0 (near_refl _) N0 ltac:(lia) ltac:(lia) ltac:(lia)) as (z1 & -> & Z1 & M1).
    destruct (op_div L _ _ _ _ _ _ _ _ _ _ Z1 Z3 M1 M3 Y ltac:(lia) ltac:(lia) ltac:(lia)) as (z4 & -> & Z4 & M4).
    destruct (op_mul L _ _ _ _ _ _ _ _ _ _ Z4 Z5 M4 M5 ltac:(lia) ltac:(lia) ltac:(lia)) as (z6 & -> & Z6 & M6).
    destruct (op_mul L _ _ _ _ _ _ _ _ _ _ Z6 Sv M6 Nv ltac:(lia) ltac:(lia) ltac:(lia)) as (z7 & -> & Z7 & M7).
    destruct (op_mul L _ _ _ _ _ _ _ _ _ _ So Z7 No M7 ltac:(lia) ltac:(lia) ltac:(lia)) as (z8 & -> & Z8 & M8).
    exists z8. do 2 eexists. split; [reflexivity|]. split; [apply omega_derivative; lra|]. split; [apply deep_omega_derivative; lra|].
    match goal with |- Rabs (_ - ?D) <= _ * Rabs ?K => replace D with (K * (1 - attenuation x)) by (field; lra) end.
    apply (absolute _ _ _ e); try lra; [exact Ne'|]. match type of M8 with near _ ?w _ => match goal with |- near _ ?u _ => replace u with w by (field; lra) end end.
    eapply near_weak; [exact M8|lra].
  - unfold g_dvolume_dbsf, g_vol. rewrite Ee, E5, E3.
    destruct (op_mul L _ _ _ _ 0 0 _ _ _ _ Si Sw (near_refl _) (near_refl _) ltac:(lia) ltac:(lia) ltac:(lia)) as (z1 & -> & Z1 & M1).
    destruct (op_mul L _ _ _ _ _ _ _ _ _ _ Z1 S0 M1 N0 ltac:(lia) ltac:(lia) ltac:(lia)) as (z2 & -> & Z2 & M2).
    destruct (op_div L _ _ _ _ _ _ _ _ _ _ Z2 Z3 M2 M3 Y ltac:(lia) ltac:(lia) ltac:(lia)) as (z4 & -> & Z4 & M4).
    destruct (op_mul L _ _ _ _ _ _ _ _ _ _ Z4 Z5 M4 M5 ltac:(lia) ltac:(lia) ltac:(lia)) as (z6 & -> & Z6 & M6).
    destruct (op_mul L _ _ _ _ _ _ _ _ _ _ Z6 Sv M6 Nv ltac:(lia) ltac:(lia) ltac:(lia)) as (z7 & -> & Z7 & M7).
    exists (- z7). do 2 eexists. split; [reflexivity|]. split; [apply vbsf_derivative; lra|]. split; [apply deep_bsf_derivative; lra|]. rewrite Rabs_Ropp.
    match goal with |- Rabs (- _ - - ?D) <= _ * Rabs ?K => replace (- z7 - - D) with (- (z7 - K * (1 - attenuation x))) by (field; lra) end. rewrite Rabs_Ropp.
    apply (absolute _ _ _ e); try lra; [exact Ne'|]. match type of M7 with near _ ?w _ => match goal with |- near _ ?u _ => replace u with w by (field; lra) end end.
    eapply near_weak; [exact M7|lra].
Qed.
Print Assumptions C109_all_depths.

(** The refutation: with a correctly rounded np.exp both derivatives of every layer with T <= 2^-57 are computed as 0. *)
Theorem C109_thin_refuted : forall L x v dv,
  rounded_exp L -> good_cos L (p_t0 x) -> good_cos L (p_tex x) -> in_range x -> 0 < cos (p_t0 x) -> 0 < cos (p_tex x) -> 0 < depth x <= two (-57) ->
  near dv (p_vol x) v -> sized (-60) 60 v -> 0 < p_I0 x * p_omega x * p_vol x -> p_bsfr x < 1 ->
  let A := binary64 L in
  g_dvolume_domega A (Fin (p_I0 x)) (f_cos A (Fin (p_t0 x))) (f_cos A (Fin (p_tex x))) (Fin (p_tau x)) (Fin v) (Fin (p_bsfr x)) = Fin 0 /\
  g_dvolume_dbsf A (Fin (p_I0 x)) (Fin (p_omega x)) (f_cos A (Fin (p_t0 x))) (f_cos A (Fin (p_tex x))) (Fin (p_tau x)) (Fin v) = Fin 0 /\
  (exists D, derivable_pt_lim (fun t => volume_value (set_omega x t)) (p_omega x) D /\ 0 < D) /\
  exists D, derivable_pt_lim (fun t => volume_value (set_bsf x t)) (p_bsfr x) D /\ D < 0.
Proof.
  intros L x v dv RE G0 G1 IR C0 C1 DT Nv Sv PP PB A. pose proof eps_small as EP. unfold A. clear A.
  assert (I0 : ieee (Fin 0) = Fin 0) by (rewrite (ieee_fin _ 0) by (try lia; rewrite Rabs_R0, two_0; lra); now rewrite fl_0).
  assert (Z : forall u, f_mul (binary64 L) (Fin u) (Fin 0) = Fin 0) by (intros u; cbn [f_mul binary64 xmul]; now rewrite Rmult_0_r).
  assert (Z' : forall u, f_mul (binary64 L) (Fin 0) (Fin u) = Fin 0) by (intros u; cbn [f_mul binary64 xmul]; now rewrite Rmult_0_l).
  assert (AT : attenuation x < 1) by (unfold attenuation; rewrite <- exp_0; apply exp_increasing; unfold depth in DT; lra).
  pose proof (ratio_pos x C0 C1) as RP.
  destruct (one_bsf L x IR) as (ob & Eo & _).
  destruct (cos_sized _ _ G0) as (m0 & -> & N0 & S0 & P0). destruct (cos_sized _ _ G1) as (m1 & -> & N1 & S1 & P1).
  pose proof (thin_one L x m0 m1 RE IR C0 C1 N0 S0 P0 N1 S1 P1 DT) as Ea. destruct (sum_near L x C0 C1 m0 m1 N0 S0 N1 S1) as (z3 & E3 & Z3 & M3 & Y).
  assert (Es : f_sub (binary64 L) (f_num (binary64 L) 1) (Fin 1) = Fin 0) by (rewrite num_1, sub_eq; replace (1 - 1) with 0 by ring; exact I0).
  destruct IR as (Si & _ & Sw & _).
  split; [|split; [|split]].
  - unfold g_dvolume_domega. rewrite Ea, Es, E3, Eo.
    destruct (op_mul L _ _ _ _ 0 _ _ _ _ _ Si S0 (near_refl _) N0 ltac:(lia) ltac:(lia) ltac:(lia)) as (z1 & -> & Z1 & M1).
    destruct (op_div L _ _ _ _ _ _ _ _ _ _ Z1 Z3 M1 M3 Y ltac:(lia) ltac:(lia) ltac:(lia)) as (z4 & -> & _). rewrite Z, Z'. apply Z.
  - unfold g_dvolume_dbsf, g_vol. rewrite Ea, Es, E3.
    destruct (op_mul L _ _ _ _ 0 0 _ _ _ _ Si Sw (near_refl _) (near_refl _) ltac:(lia) ltac:(lia) ltac:(lia)) as (z1 & -> & Z1 & M1).
    destruct (op_mul L _ _ _ _ _ _ _ _ _ _ Z1 S0 M1 N0 ltac:(lia) ltac:(lia) ltac:(lia)) as (z2 & -> & Z2 & M2).
    destruct (op_div L _ _ _ _ _ _ _ _ _ _ Z2 Z3 M2 M3 Y ltac:(lia) ltac:(lia) ltac:(lia)) as (z4 & -> & _). rewrite Z, Z'. cbn [f_neg binary64 xopp]. now rewrite Ropp_0.
  - eexists. split; [apply omega_derivative; lra|]. apply (sized_pos (-60) 60) in Sw.
    assert (PV : 0 < p_I0 x * p_vol x).
    { apply Rnot_le_lt. intros W. pose proof (Rmult_le_compat_l _ _ _ Sw W). lra. }
    replace (p_I0 x * cos (p_t0 x) / (cos (p_t0 x) + cos (p_tex x)) * (1 - attenuation x) * p_vol x)
      with ((p_I0 x * p_vol x) * (cos (p_t0 x) / (cos (p_t0 x) + cos (p_tex x)) * (1 - attenuation x))) by (field; lra).
    apply Rmult_lt_0_compat; [lra|]. apply Rmult_lt_0_compat; [exact PV|]. apply Rmult_lt_0_compat; lra.
  - eexists. split; [apply vbsf_derivative; lra|].
    replace (p_I0 x * p_omega x * cos (p_t0 x) / (cos (p_t0 x) + cos (p_tex x)) * (1 - attenuation x) * p_vol x)
      with ((p_I0 x * p_omega x * p_vol x) * (cos (p_t0 x) / (cos (p_t0 x) + cos (p_tex x)) * (1 - attenuation x))) by (field; lra).
    assert (0 < cos (p_t0 x) / (cos (p_t0 x) + cos (p_tex x)) * (1 - attenuation x)) by (apply Rmult_lt_0_compat; lra).
    pose proof (Rmult_lt_0_compat _ _ PP H). lra.
Qed.
Print Assumptions C109_thin_refuted.

(** the layers of optical depth 4 and 2^-58 of Properties35.v *)
Example C109_nonvacuous :
  (let x := layer 1 in let A := binary64 lib_ex in
   (exists r D, g_dvolume_domega A (Fin (p_I0 x)) (f_cos A (Fin (p_t0 x))) (f_cos A (Fin (p_tex x))) (Fin (p_tau x)) (Fin (1 / 8)) (Fin (p_bsfr x)) = Fin r /\
     derivable_pt_lim (fun t => volume_value (set_omega x t)) (p_omega x) D /\ Rabs (r - D) <= 2 * (34 + 0 + 4 / 4) * eps * Rabs D) /\
   (exists r D, g_dvolume_dbsf A (Fin (p_I0 x)) (Fin (p_omega x)) (f_cos A (Fin (p_t0 x))) (f_cos A (Fin (p_tex x))) (Fin (p_tau x)) (Fin (1 / 8)) = Fin r /\
     derivable_pt_lim (fun t => volume_value (set_bsf x t)) (p_bsfr x) D /\ Rabs (r - D) <= 2 * (33 + 0 + 4 / 4) * eps * Rabs D)) /\
  (let x := layer (two (-60)) in let A := binary64 lib_ex in
   g_dvolume_domega A (Fin (p_I0 x)) (f_cos A (Fin (p_t0 x))) (f_cos A (Fin (p_tex x))) (Fin (p_tau x)) (Fin (1 / 8)) (Fin (p_bsfr x)) = Fin 0 /\
   exists D, derivable_pt_lim (fun t => volume_value (set_omega x t)) (p_omega x) D /\ 0 < D).
Proof.
  split; intros x A.
  - destruct (layer_ok 0 ltac:(lia)) as (RE & G & IR & C & _ & _ & N & S & D & _). rewrite two_0 in *. change (two (0 + 2)) with 4 in D. fold x in IR, D.
    assert (B : two (-43) <= two 0) by (apply bpow_le; lia). rewrite two_0 in B. split.
    + pose proof (C109_omega_partial lib_ex x (1 / 8) 0 (rounded_good _ RE) G G IR C C ltac:(lra) ltac:(lra) N S) as K. rewrite D in K. exact K.
    + pose proof (C109_bsf_partial lib_ex x (1 / 8) 0 (rounded_good _ RE) G G IR C C ltac:(lra) ltac:(lra) N S) as K. rewrite D in K. exact K.
  - destruct (layer_ok (-60) ltac:(lia)) as (RE & G & IR & C & _ & _ & N & S & D & _). fold x in IR, D.
    destruct (C109_thin_refuted lib_ex x (1 / 8) _ RE G G IR C C ltac:(rewrite D; split; [apply two_pos|apply bpow_le; lia]) N S) as (E & _ & K & _); [cbn; lra|cbn; lra|].
    split; assumption.
Qed.
(** the thin layer: the derivatives computed as 0 are off by no more than a few eps of those of a deep layer *)
Example C109_nonvacuous_thin : let x := layer (two (-60)) in let A := binary64 lib_ex in
  exists r D Dd, g_dvolume_domega A (Fin (p_I0 x)) (f_cos A (Fin (p_t0 x))) (f_cos A (Fin (p_tex x))) (Fin (p_tau x)) (Fin (1 / 8)) (Fin (p_bsfr x)) = Fin r /\
    derivable_pt_lim (fun t => volume_value (set_omega x t)) (p_omega x) D /\ derivable_pt_lim (fun t => deep_value (set_omega x t)) (p_omega x) Dd /\
    Rabs (r - D) <= 2 * (10 + 0 + (1 + 6 * two (-58)) * attenuation x) * eps * Rabs Dd.
Proof.
  intros x A. destruct (layer_ok (-60) ltac:(lia)) as (RE & G & IR & C & _ & _ & N & S & D & _). fold x in IR, D.
  assert (B : two (-60 + 2) <= two 0) by (apply bpow_le; lia). rewrite two_0 in B.
  destruct (C109_all_depths lib_ex x (1 / 8) 0 (rounded_good _ RE) G G IR C C ltac:(lra) ltac:(lra) N S) as [K _]. rewrite D in K. exact K.
Qed.
