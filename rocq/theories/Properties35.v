(** Rounding errors: C97, C98. *)
From Flocq Require Import Core Relative.
From Coquelicot Require Import Rcomplements.
From Coq Require Import ZArith Reals Lra Lia List.
From Verif Require Import Spec Float.
From Verif Require Import Elem.
Open Scope R_scope.

(** ** Vocabulary *)
(** optical depth along the two paths through the layer *)
Definition depth (x : point) : R := p_tau x / cos (p_t0 x) + p_tau x / cos (p_tex x).
(** np.exp of a number between -500 and 0 is a binary64 number of relative error at most eps that is at most 1 *)
Definition good_exp (L : libm) : Prop := forall u, 0 <= u <= 500 ->
  exists z, l_exp L (Fin (- u)) = Fin z /\ near eps (exp (- u)) z /\ generic_format radix2 b64 z /\ z <= 1.
(** np.cos of the angle has a relative error of at most eps; the value is at least 2^-60 (any double below pi/2) *)
Definition good_cos (L : libm) (t : R) : Prop := exists m, l_cos L (Fin t) = Fin m /\ near eps (cos t) m /\ two (-60) <= m <= 1.
(** the parameters are 0 or between 2^-60 and 2^60, bsf is a binary64 number in [0, 1] *)
Definition in_range (x : point) : Prop :=
  sized (-60) 60 (p_I0 x) /\ sized (-60) 60 (p_tau x) /\ sized (-60) 60 (p_omega x) /\ sized (-60) 60 (p_norm x) /\
  sized (-60) 0 (p_bsfr x) /\ generic_format radix2 b64 (p_bsfr x).

(** ** Attenuation *)
Lemma exp_nat n : exp (INR n) <= 3 ^ n.
Proof.
  induction n as [|n IH]; [simpl; rewrite exp_0; lra|]. rewrite S_INR, exp_plus. simpl. pose proof exp_le_3. pose proof (exp_pos (INR n)). pose proof (exp_pos 1).
  rewrite Rmult_comm. apply Rmult_le_compat; lra.
Qed.
Lemma exp_302 : two (-480) <= exp (- (302)).
Proof.
  rewrite exp_Ropp. change (-480)%Z with (- (480))%Z. rewrite bpow_opp. apply Rinv_le_contravar; [apply exp_pos|].
  replace 302 with (INR 302) by (rewrite INR_IZR_INZ; reflexivity). eapply Rle_trans; [apply exp_nat|].
  rewrite pow_IZR. change (two 480) with (IZR (Z.pow_pos 2 480)). apply IZR_le. apply Z.leb_le. vm_compute. reflexivity.
Qed.
Lemma exp_lin d : 0 <= d <= 1 / 2 -> exp d - 1 <= 2 * d.
Proof.
  intros H. pose proof (exp_ineq1_le (- d)). pose proof (exp_pos d). assert (E : exp (- d) * exp d = 1) by (rewrite <- exp_plus; replace (- d + d) with 0 by ring; apply exp_0). nra.
Qed.
Section Accuracy.
  Context (L : libm) (x : point).
  Notation A := (binary64 L).
  Hypothesis (GE : good_exp L) (G0 : good_cos L (p_t0 x)) (G1 : good_cos L (p_tex x)) (IR : in_range x).
  Hypothesis (C0 : 0 < cos (p_t0 x)) (C1 : 0 < cos (p_tex x)) (DT : depth x <= 300).
  Let T := depth x.
  Lemma two_0 : two 0 = 1. Proof. reflexivity. Qed.
  Lemma cos_sized t : good_cos L t -> exists m, f_cos A (Fin t) = Fin m /\ near eps (cos t) m /\ sized (-60) 0 m /\ 0 < m.
  Proof. intros (m & E & N & B). exists m. rewrite <- two_0 in B. pose proof (two_pos (-60)). split; [exact E|]. split; [exact N|]. split; [right; lra|lra]. Qed.
  Lemma T_pos : 0 <= T.
  Proof.
    destruct IR as (_ & St & _). apply sized_pos in St. unfold T, depth. assert (0 <= p_tau x / cos (p_t0 x)) by (apply Rmult_le_pos; [assumption|left; now apply Rinv_0_lt_compat]).
    assert (0 <= p_tau x / cos (p_tex x)) by (apply Rmult_le_pos; [assumption|left; now apply Rinv_0_lt_compat]). lra.
  Qed.
  Lemma arg_ok m0 m1 : near eps (cos (p_t0 x)) m0 -> sized (-60) 0 m0 -> 0 < m0 -> near eps (cos (p_tex x)) m1 -> sized (-60) 0 m1 -> 0 < m1 ->
    exists S, f_sub A (f_neg A (f_div A (Fin (p_tau x)) (Fin m0))) (f_div A (Fin (p_tau x)) (Fin m1)) = Fin (- S) /\ near (3 * eps) T S /\ sized (-60) 121 S.
  Proof.
    intros N0 S0 P0 N1 S1 P1. destruct IR as (_ & St & _).
    destruct (op_div L (-60) 60 (-60) 0 0 eps _ _ _ _ St S0 (near_refl _) N0 ltac:(lra) ltac:(lia) ltac:(lia) ltac:(lia)) as (d0 & E0 & Sd0 & Nd0).
    destruct (op_div L (-60) 60 (-60) 0 0 eps _ _ _ _ St S1 (near_refl _) N1 ltac:(lra) ltac:(lia) ltac:(lia) ltac:(lia)) as (d1 & E1 & Sd1 & Nd1).
    rewrite E0, E1. pose proof T_pos as TP. pose proof (sized_pos _ _ _ St) as TT.
    assert (Q0 : 0 <= p_tau x / cos (p_t0 x)) by (apply Rmult_le_pos; [assumption|left; now apply Rinv_0_lt_compat]).
    assert (Q1 : 0 <= p_tau x / cos (p_tex x)) by (apply Rmult_le_pos; [assumption|left; now apply Rinv_0_lt_compat]).
    destruct (op_add L (-60) 120 (0 + eps + eps) _ _ _ _ Sd0 Sd1 Nd0 Nd1 Q0 Q1 ltac:(lia) ltac:(lia) ltac:(lia)) as (S & Es & Ss & Ns).
    exists S. split; [|split; [eapply near_weak; [exact Ns|lra]|exact Ss]].
    assert (Hf : d0 + d1 <= two 121 /\ 0 <= d0 + d1).
    { pose proof (sized_pos _ _ _ Sd0). pose proof (sized_pos _ _ _ Sd1). split; [|lra]. destruct (sized_add _ _ _ _ Sd0 Sd1) as [->|[_ B]]; [left; apply two_pos|exact B]. }
    cbn [f_sub f_neg f_add binary64 xopp xsub xadd] in *.
    rewrite (ieee_fin _ 121) by (try lia; rewrite Rabs_left1 by lra; lra). rewrite (ieee_fin _ 121) in Es by (try lia; rewrite Rabs_pos_eq by lra; lra).
    injection Es as <-. f_equal. rewrite <- fl_opp. f_equal. ring.
  Qed.
  Lemma atten_ok m0 m1 : near eps (cos (p_t0 x)) m0 -> sized (-60) 0 m0 -> 0 < m0 -> near eps (cos (p_tex x)) m1 -> sized (-60) 0 m1 -> 0 < m1 ->
    exists e, g_atten A (Fin (p_tau x)) (Fin m0) (Fin m1) = Fin e /\ near (eps + T * (exp (3 * eps) - 1)) (attenuation x) e /\
      sized (-480) 0 e /\ generic_format radix2 b64 e /\ 0 <= e <= 1.
  Proof.
    intros N0 S0 P0 N1 S1 P1. destruct (arg_ok m0 m1 N0 S0 P0 N1 S1 P1) as (S & E & N & _). unfold g_atten. rewrite E. pose proof T_pos as TP. pose proof eps_small as EP.
    assert (SB : Rabs (S - T) <= T * (exp (3 * eps) - 1)) by (rewrite Rmult_comm; rewrite <- (Rabs_pos_eq T) at 2 by assumption; now apply near_bound).
    assert (E3 : 0 <= exp (3 * eps) - 1 <= 6 * eps) by (pose proof (exp_lin (3 * eps) ltac:(lra)); pose proof (exp_ineq1_le (3 * eps)); lra).
    assert (E4 : T * (exp (3 * eps) - 1) <= 1).
    { unfold T at 1. apply Rle_trans with (300 * (6 * eps)); [apply Rmult_le_compat; try lra; exact TP|]. unfold eps. apply Rle_trans with (1800 * two (-20)); [assert (two (-52) <= two (-20)) by (apply bpow_le; lia); lra|]. change (two (-20)) with (/ 1048576). lra. }
    assert (S2 : 0 <= S <= 301) by (split; [now apply (near_pos _ _ _ N)|]; apply Rabs_le_between in SB; unfold T in *; lra).
    destruct (GE S ltac:(lra)) as (e & Ee & Ne & Fe & Le). exists e. split; [exact Ee|].
    assert (K : near (eps + T * (exp (3 * eps) - 1)) (attenuation x) e).
    { rewrite Rplus_comm. eapply near_trans; [|exact Ne]. unfold attenuation. apply exp_diff. replace (- S - - (p_tau x / cos (p_t0 x) + p_tau x / cos (p_tex x))) with (- (S - T)) by (unfold T, depth; ring). now rewrite Rabs_Ropp. }
    split; [exact K|]. assert (B : two (-480) <= e).
    { destruct Ne as (k & [K1 _] & ->). eapply Rle_trans; [apply exp_302|]. replace (- (302)) with (- 301 + - 1) by ring. rewrite exp_plus.
      apply Rmult_le_compat; try (left; apply exp_pos); [apply exp_le; lra|]. eapply Rle_trans; [|exact K1]. apply exp_le. lra. }
    pose proof (two_pos (-480)). split; [right; rewrite two_0; lra|]. split; [exact Fe|lra].
  Qed.
  Lemma bare_ok m0 srf db : near eps (cos (p_t0 x)) m0 -> sized (-60) 0 m0 -> near db (p_brdf x) srf -> sized (-60) 60 srf ->
    exists b, g_bare A (Fin (p_I0 x)) (Fin m0) (Fin srf) = Fin b /\ sized (-180) 120 b /\ near (3 * eps + db) (p_I0 x * cos (p_t0 x) * p_brdf x) b.
  Proof.
    intros N0 S0 Nb Sb. destruct IR as (Si & _).
    destruct (op_mul L (-60) 60 (-60) 0 0 eps _ _ _ _ Si S0 (near_refl _) N0 ltac:(lia) ltac:(lia) ltac:(lia)) as (a & E & S & N).
    destruct (op_mul L _ _ (-60) 60 _ db _ _ _ _ S Sb N Nb ltac:(lia) ltac:(lia) ltac:(lia)) as (b & E' & S' & N').
    exists b. split; [unfold g_bare; rewrite E; exact E'|]. split; [exact S'|]. eapply near_weak; [exact N'|lra].
  Qed.
  Lemma one_bsf : exists ob, f_sub A (f_num A 1) (Fin (p_bsfr x)) = Fin ob /\ sized (-53) 0 ob /\ near eps (1 - p_bsfr x) ob /\ 0 <= p_bsfr x <= 1.
  Proof.
    destruct IR as (_ & _ & _ & _ & Sb & Fb). pose proof (sized_pos _ _ _ Sb).
    assert (B : p_bsfr x <= 1) by (pose proof two_0; destruct Sb as [->|[_ B]]; lra).
    destruct (op_one L (p_bsfr x) ltac:(lra) Fb) as (z & E & S & N). exists z. auto.
  Qed.
  Lemma surface_ok srf db : 0 <= db -> near db (p_brdf x) srf -> sized (-60) 60 srf ->
    exists r, g_surface A (Fin (p_I0 x)) (f_cos A (Fin (p_t0 x))) (f_cos A (Fin (p_tex x))) (Fin srf) (Fin (p_tau x)) (Fin (p_norm x)) (Fin (p_bsfr x)) = Fin r /\
      near (9 * eps + db + T * (exp (3 * eps) - 1)) (surface_value x) r /\ sized (-773) 181 r.
  Proof.
    intros Pd Nb Sb. destruct (cos_sized _ G0) as (m0 & -> & N0 & S0 & P0). destruct (cos_sized _ G1) as (m1 & -> & N1 & S1 & P1).
    destruct (atten_ok m0 m1 N0 S0 P0 N1 S1 P1) as (e & Ee & Ne & Se & Fe & Be). destruct (bare_ok m0 srf db N0 S0 Nb Sb) as (b & Eb & Sz & Nz).
    destruct one_bsf as (ob & Eo & So & No & Bo). destruct IR as (Si & _ & _ & Sn & Sf & _). pose proof eps_small as EP. pose proof T_pos as TP.
    assert (E3 : 0 <= T * (exp (3 * eps) - 1)) by (apply Rmult_le_pos; [assumption|]; pose proof (exp_ineq1_le (3 * eps)); lra).
    unfold g_surface, g_mix. rewrite Ee, Eb, Eo.
    destruct (op_mul L _ _ _ _ _ _ _ _ _ _ Se Sz Ne Nz ltac:(lia) ltac:(lia) ltac:(lia)) as (z1 & -> & Z1 & M1).
    destruct (op_mul L _ _ _ _ _ _ _ _ _ _ So Z1 No M1 ltac:(lia) ltac:(lia) ltac:(lia)) as (z2 & -> & Z2 & M2).
    destruct (op_mul L _ _ _ _ 0 _ _ _ _ _ Sf Sz (near_refl _) Nz ltac:(lia) ltac:(lia) ltac:(lia)) as (z3 & -> & Z3 & M3).
    assert (PB : 0 <= p_I0 x * cos (p_t0 x) * p_brdf x).
    { apply Rmult_le_pos; [apply Rmult_le_pos; [now apply (sized_pos (-60) 60)|lra]|]. destruct Nb as (k & [K1 _] & ->). pose proof (sized_pos _ _ _ Sb). pose proof (exp_pos (- db)).
      apply Rmult_le_reg_r with k; [lra|]. lra. }
    pose proof (attenuation_le x C0 C1 ltac:(destruct IR as (_ & St & _); now apply sized_pos in St)) as AT.
    set (d := eps + (eps + T * (exp (3 * eps) - 1) + (3 * eps + db) + eps) + eps) in M2.
    assert (M3' : near d (p_bsfr x * (p_I0 x * cos (p_t0 x) * p_brdf x)) z3) by (eapply near_weak; [exact M3|unfold d; lra]).
    destruct (op_add L (-713) 120 d _ _ _ _ (sized_weak _ _ (-713) 120 _ Z2 ltac:(lia) ltac:(lia)) (sized_weak _ _ (-713) 120 _ Z3 ltac:(lia) ltac:(lia)) M2 M3'
      ltac:(apply Rmult_le_pos; [lra|apply Rmult_le_pos; lra]) ltac:(apply Rmult_le_pos; lra) ltac:(lia) ltac:(lia) ltac:(lia)) as (z4 & -> & Z4 & M4).
    destruct (op_mul L _ _ _ _ 0 _ _ _ _ _ Sn Z4 (near_refl _) M4 ltac:(lia) ltac:(lia) ltac:(lia)) as (z5 & E5 & Z5 & M5).
    exists z5. split; [exact E5|]. split; [|exact Z5].
    replace (surface_value x) with (p_norm x * ((1 - p_bsfr x) * (attenuation x * (p_I0 x * cos (p_t0 x) * p_brdf x)) + p_bsfr x * (p_I0 x * cos (p_t0 x) * p_brdf x))) by (unfold surface_value; ring).
    eapply near_weak; [exact M5|]. unfold d. lra.
  Qed.
  Lemma volume_near v dv : near dv (p_vol x) v -> sized (-60) 60 v ->
    exists m0 m1 e r, f_cos A (Fin (p_t0 x)) = Fin m0 /\ f_cos A (Fin (p_tex x)) = Fin m1 /\
      near eps (cos (p_t0 x)) m0 /\ sized (-60) 0 m0 /\ 0 < m0 /\ near eps (cos (p_tex x)) m1 /\ sized (-60) 0 m1 /\ 0 < m1 /\
      g_atten A (Fin (p_tau x)) (Fin m0) (Fin m1) = Fin e /\ near (eps + T * (exp (3 * eps) - 1)) (attenuation x) e /\ 0 <= e <= 1 /\
      g_volume A (Fin (p_I0 x)) (Fin (p_omega x)) (f_cos A (Fin (p_t0 x))) (f_cos A (Fin (p_tex x))) (Fin (p_tau x)) (Fin v) (Fin (p_bsfr x)) = Fin r /\
      near (11 * eps + dv) (deep_value x * (1 - e)) r /\ sized (-900) 700 r.
  Proof.
    intros Nv Sv. destruct (cos_sized _ G0) as (m0 & -> & N0 & S0 & P0). destruct (cos_sized _ G1) as (m1 & -> & N1 & S1 & P1).
    destruct (atten_ok m0 m1 N0 S0 P0 N1 S1 P1) as (e & Ee & Ne & Se & Fe & Be). exists m0, m1, e.
    destruct one_bsf as (ob & Eo & So & No & Bo). destruct IR as (Si & _ & Sw & _). pose proof eps_small as EP.
    unfold g_volume, g_vol. rewrite Ee, Eo.
    destruct (op_mul L _ _ _ _ 0 0 _ _ _ _ Si Sw (near_refl _) (near_refl _) ltac:(lia) ltac:(lia) ltac:(lia)) as (z1 & -> & Z1 & M1).
    destruct (op_mul L _ _ _ _ _ _ _ _ _ _ Z1 S0 M1 N0 ltac:(lia) ltac:(lia) ltac:(lia)) as (z2 & -> & Z2 & M2).
    destruct (op_add L (-60) 0 eps _ _ _ _ S0 S1 N0 N1 ltac:(lra) ltac:(lra) ltac:(lia) ltac:(lia) ltac:(lia)) as (z3 & -> & Z3 & M3).
    assert (Y : z3 <> 0) by (intros W; pose proof (near_zero _ _ _ M3 W); lra).
    destruct (op_div L _ _ _ _ _ _ _ _ _ _ Z2 Z3 M2 M3 Y ltac:(lia) ltac:(lia) ltac:(lia)) as (z4 & -> & Z4 & M4).
    destruct (op_one L e Be Fe) as (z5 & -> & Z5 & M5).
    destruct (op_mul L _ _ _ _ _ _ _ _ _ _ Z4 Z5 M4 M5 ltac:(lia) ltac:(lia) ltac:(lia)) as (z6 & -> & Z6 & M6).
    destruct (op_mul L _ _ _ _ _ _ _ _ _ _ Z6 Sv M6 Nv ltac:(lia) ltac:(lia) ltac:(lia)) as (z7 & -> & Z7 & M7).
    destruct (op_mul L _ _ _ _ _ _ _ _ _ _ So Z7 No M7 ltac:(lia) ltac:(lia) ltac:(lia)) as (z8 & E8 & Z8 & M8).
    exists z8. repeat (split; [first [reflexivity|assumption]|]).
    split; [|eapply sized_weak; [exact Z8|lia|lia]].
    match type of M8 with near ?d ?v _ => replace (deep_value x * (1 - e)) with v by (unfold deep_value; field; lra); eapply near_weak; [exact M8|lra] end.
  Qed.
  Lemma deep_pos v dv : near dv (p_vol x) v -> sized (-60) 60 v -> 0 <= deep_value x.
  Proof.
    intros Nv Sv. destruct one_bsf as (_ & _ & _ & _ & Bo). destruct IR as (Si & _ & Sw & _). unfold deep_value. apply Rmult_le_pos; [lra|].
    apply Rmult_le_pos; [apply Rmult_le_pos; [apply Rmult_le_pos; [now apply (sized_pos (-60) 60)|now apply (sized_pos (-60) 60)]|left; now apply ratio_pos]|].
    destruct Nv as (k & [K1 _] & ->). pose proof (sized_pos _ _ _ Sv). pose proof (exp_pos (- dv)). apply Rmult_le_reg_r with k; lra.
  Qed.
End Accuracy.

Lemma surface_pos x srf db : in_range x -> 0 < cos (p_t0 x) -> 0 < cos (p_tex x) -> near db (p_brdf x) srf -> sized (-60) 60 srf -> 0 <= surface_value x.
Proof.
  intros IR C0 C1 Nb Sb.
  assert (PB : 0 <= p_brdf x) by (destruct Nb as (q & [K1 _] & ->); pose proof (sized_pos _ _ _ Sb); pose proof (exp_pos (- db)); apply Rmult_le_reg_r with q; lra).
  destruct IR as (Si & St & _ & Sn & Sf & _). apply sized_pos in Si, St, Sn. pose proof (sized_pos _ _ _ Sf).
  assert (B : p_bsfr x <= 1) by (destruct Sf as [->|[_ B]]; [lra|exact B]). destruct (attenuation_le x C0 C1 St) as [A1 A2].
  unfold surface_value. apply Rmult_le_pos; [apply Rmult_le_pos; [apply Rmult_le_pos; [apply Rmult_le_pos; lra|lra]|lra]|]. assert (0 <= (1 - p_bsfr x) * attenuation x) by (apply Rmult_le_pos; lra). lra.
Qed.
(** *** C97.  Rounding errors of the surface contribution.
    In IEEE double precision, if the elementary functions have a relative error of at most eps = 2^-52 and the values of
    the distribution functions a relative error of k eps, the surface contribution has a relative error of at most
    2 (9 + k + 6 T) eps, T the optical depth along the two paths.  No operation over- or underflows. *)
Theorem C97_surface : forall L x srf k,
  good_exp L -> good_cos L (p_t0 x) -> good_cos L (p_tex x) -> in_range x -> 0 < cos (p_t0 x) -> 0 < cos (p_tex x) -> depth x <= 300 ->
  0 <= k <= 1000 -> near (k * eps) (p_brdf x) srf -> sized (-60) 60 srf ->
  let A := binary64 L in
  exists r, g_surface A (Fin (p_I0 x)) (f_cos A (Fin (p_t0 x))) (f_cos A (Fin (p_tex x))) (Fin srf) (Fin (p_tau x)) (Fin (p_norm x)) (Fin (p_bsfr x)) = Fin r /\
    Rabs (r - surface_value x) <= 2 * (9 + k + 6 * depth x) * eps * surface_value x.
Proof.
  intros L x srf k GE G0 G1 IR C0 C1 DT Hk Nb Sb A. pose proof eps_small as EP.
  destruct (surface_ok L x GE G0 G1 IR C0 C1 DT srf (k * eps) ltac:(apply Rmult_le_pos; lra) Nb Sb) as (r & Er & N & _). exists r. split; [exact Er|].
  pose proof (T_pos x IR C0 C1) as TP. set (T := depth x) in *.
  assert (E3 : 0 <= exp (3 * eps) - 1 <= 6 * eps) by (pose proof (exp_lin (3 * eps) ltac:(lra)); pose proof (exp_ineq1_le (3 * eps)); lra).
  assert (TE : T * (exp (3 * eps) - 1) <= T * (6 * eps)) by (apply Rmult_le_compat_l; lra).
  assert (N' : near ((9 + k + 6 * T) * eps) (surface_value x) r) by (eapply near_weak; [exact N|lra]).
  pose proof (surface_pos x srf _ IR C0 C1 Nb Sb) as PS.
  apply near_bound in N'. rewrite (Rabs_pos_eq (surface_value x)) in N' by assumption. eapply Rle_trans; [exact N'|]. apply Rmult_le_compat_r; [assumption|].
  replace (2 * (9 + k + 6 * T) * eps) with (2 * ((9 + k + 6 * T) * eps)) by ring. apply exp_lin. split; [apply Rmult_le_pos; lra|].
  apply Rle_trans with (3409 * two (-20)); [apply Rmult_le_compat; try lra; unfold eps; apply bpow_le; lia|]. change (two (-20)) with (/ 1048576). lra.
Qed.
Print Assumptions C97_surface.

(** the conversion to sigma0 units *)
Lemma sigma0_near L x s v d lo hi :
  good_cos L (p_t0 x) -> sized (-60) 60 (p_I0 x) -> p_I0 x <> 0 -> near d v s -> sized lo hi s -> (-900 <= lo <= hi)%Z -> (hi <= 800)%Z ->
  let A := binary64 L in
  exists r, g_sig0 A (Fin (p_I0 x)) (f_cos A (Fin (p_t0 x))) (Fin s) = Fin r /\ near (d + 6 * eps) (unit_factor true x * v) r /\ sized (-1020) 1000 r.
Proof.
  intros G0 Si PI0 N Ss Hl Hh A. pose proof eps_small as EP.
  destruct (cos_sized L _ G0) as (m0 & E0 & N0 & S0 & P0). fold A in E0. rewrite E0. clear E0.
  pose proof PI_RGT_0 as PP. pose proof PI_4 as P4. pose proof PI2_3_2 as P3.
  assert (NP : exists p, f_num A PI = Fin p /\ near eps PI p /\ sized 0 2 p).
  { assert (SP : sized 0 2 PI) by (right; rewrite two_0; change (two 2) with 4; lra). exists (fl PI). cbn [f_num A binary64].
    split; [apply (ieee_fin _ 2); [lia|]; rewrite Rabs_pos_eq by lra; change (two 2) with 4; lra|]. split; [apply (fl_near 0 2); [lia|exact SP]|apply fl_sized; [lia|lia|exact SP]]. }
  destruct NP as (p & Ep & Np & Sp).
  assert (N4 : f_num A 4 = Fin 4) by (cbn [f_num A binary64]; change 4 with (two 2); rewrite (ieee_fin _ 2) by (first [lia|rewrite Rabs_pos_eq by apply bpow_ge_0; lra]); now rewrite fl_two by lia).
  assert (S4 : sized 2 2 4) by (right; change (two 2) with 4; lra).
  unfold g_sig0. rewrite N4, Ep. unfold A.
  destruct (op_mul L _ _ _ _ 0 _ _ _ _ _ S4 Sp (near_refl _) Np ltac:(lia) ltac:(lia) ltac:(lia)) as (z1 & -> & Z1 & M1).
  destruct (op_mul L _ _ _ _ _ _ _ _ _ _ Z1 S0 M1 N0 ltac:(lia) ltac:(lia) ltac:(lia)) as (z2 & -> & Z2 & M2).
  destruct (op_div L _ _ _ _ _ 0 _ _ _ _ Z2 Si M2 (near_refl _) PI0 ltac:(lia) ltac:(lia) ltac:(lia)) as (z3 & -> & Z3 & M3).
  destruct (op_mul L _ _ _ _ _ _ _ _ _ _ Ss Z3 N M3 ltac:(lia) ltac:(lia) ltac:(lia)) as (r & -> & Zr & M4).
  exists r. split; [reflexivity|]. split.
  - replace (unit_factor true x * v) with (v * (4 * PI * cos (p_t0 x) / p_I0 x)) by (unfold unit_factor; ring). eapply near_weak; [exact M4|lra].
  - eapply sized_weak; [exact Zr|lia|lia].
Qed.
(** the same in sigma0 units *)
Lemma surface_sigma0_near : forall L x srf k,
  good_exp L -> good_cos L (p_t0 x) -> good_cos L (p_tex x) -> in_range x -> 0 < cos (p_t0 x) -> 0 < cos (p_tex x) -> depth x <= 300 -> p_I0 x <> 0 ->
  0 <= k <= 1000 -> near (k * eps) (p_brdf x) srf -> sized (-60) 60 srf ->
  let A := binary64 L in
  exists r, g_sig0 A (Fin (p_I0 x)) (f_cos A (Fin (p_t0 x)))
      (g_surface A (Fin (p_I0 x)) (f_cos A (Fin (p_t0 x))) (f_cos A (Fin (p_tex x))) (Fin srf) (Fin (p_tau x)) (Fin (p_norm x)) (Fin (p_bsfr x))) = Fin r /\
    near ((15 + k + 6 * depth x) * eps) (unit_factor true x * surface_value x) r /\ sized (-1020) 1000 r /\
    0 <= unit_factor true x * surface_value x /\ 0 <= (15 + k + 6 * depth x) * eps <= 1 / 64.
Proof.
  intros L x srf k GE G0 G1 IR C0 C1 DT PI0 Hk Nb Sb A. pose proof eps_small as EP.
  destruct (surface_ok L x GE G0 G1 IR C0 C1 DT srf (k * eps) ltac:(apply Rmult_le_pos; lra) Nb Sb) as (s & Es & N & Ss). fold A in Es. rewrite Es.
  destruct IR as (Si & R).
  destruct (sigma0_near L x s _ _ _ _ G0 Si PI0 N Ss ltac:(lia) ltac:(lia)) as (r & Er & M4 & Sr). fold A in Er.
  exists r. split; [exact Er|]. pose proof (T_pos x (conj Si R) C0 C1) as TP. set (T := depth x) in *. pose proof PI_RGT_0 as PP.
  assert (E3 : 0 <= exp (3 * eps) - 1 <= 6 * eps) by (pose proof (exp_lin (3 * eps) ltac:(lra)); pose proof (exp_ineq1_le (3 * eps)); lra).
  assert (TE : T * (exp (3 * eps) - 1) <= T * (6 * eps)) by (apply Rmult_le_compat_l; lra).
  split; [eapply near_weak; [exact M4|lra]|]. split; [exact Sr|].
  pose proof (surface_pos x srf _ (conj Si R) C0 C1 Nb Sb) as PS. pose proof (sized_pos _ _ _ Si) as Pi.
  split.
  { apply Rmult_le_pos; [|exact PS]. unfold unit_factor. apply Rmult_le_pos; [apply Rmult_le_pos; lra|left; apply Rinv_0_lt_compat; lra]. }
  split; [apply Rmult_le_pos; lra|].
  apply Rle_trans with (3409 * two (-20)); [apply Rmult_le_compat; try lra; unfold eps; apply bpow_le; lia|]. change (two (-20)) with (/ 1048576). lra.
Qed.
Theorem C97_surface_sigma0 : forall L x srf k,
  good_exp L -> good_cos L (p_t0 x) -> good_cos L (p_tex x) -> in_range x -> 0 < cos (p_t0 x) -> 0 < cos (p_tex x) -> depth x <= 300 -> p_I0 x <> 0 ->
  0 <= k <= 1000 -> near (k * eps) (p_brdf x) srf -> sized (-60) 60 srf ->
  let A := binary64 L in
  exists r, g_sig0 A (Fin (p_I0 x)) (f_cos A (Fin (p_t0 x)))
      (g_surface A (Fin (p_I0 x)) (f_cos A (Fin (p_t0 x))) (f_cos A (Fin (p_tex x))) (Fin srf) (Fin (p_tau x)) (Fin (p_norm x)) (Fin (p_bsfr x))) = Fin r /\
    Rabs (r - unit_factor true x * surface_value x) <= 2 * (15 + k + 6 * depth x) * eps * (unit_factor true x * surface_value x).
Proof.
  intros L x srf k GE G0 G1 IR C0 C1 DT PI0 Hk Nb Sb A.
  destruct (surface_sigma0_near L x srf k GE G0 G1 IR C0 C1 DT PI0 Hk Nb Sb) as (r & Er & N' & _ & PU & B). exists r. split; [exact Er|].
  apply near_bound in N'. rewrite (Rabs_pos_eq (unit_factor true x * surface_value x)) in N' by assumption. eapply Rle_trans; [exact N'|]. apply Rmult_le_compat_r; [assumption|].
  replace (2 * (15 + k + 6 * depth x) * eps) with (2 * ((15 + k + 6 * depth x) * eps)) by ring. apply exp_lin. lra.
Qed.
Print Assumptions C97_surface_sigma0.

(** *** C98.  Rounding errors of the volume contribution.
    Intended: the same for the volume contribution, a relative error bounded by a multiple of eps.  The code computes 1 - exp(-T),
    which loses all digits of a thin layer: only the error relative to the contribution of an infinitely deep layer is bounded. *)
Theorem C98_volume_partial : forall L x v k,
  good_exp L -> good_cos L (p_t0 x) -> good_cos L (p_tex x) -> in_range x -> 0 < cos (p_t0 x) -> 0 < cos (p_tex x) -> depth x <= 300 ->
  0 <= k <= 1000 -> near (k * eps) (p_vol x) v -> sized (-60) 60 v ->
  let A := binary64 L in
  exists r, g_volume A (Fin (p_I0 x)) (Fin (p_omega x)) (f_cos A (Fin (p_t0 x))) (f_cos A (Fin (p_tex x))) (Fin (p_tau x)) (Fin v) (Fin (p_bsfr x)) = Fin r /\
    Rabs (r - volume_value x) <= 2 * (11 + k + (1 + 6 * depth x) * attenuation x) * eps * deep_value x.
Proof.
  intros L x v k GE G0 G1 IR C0 C1 DT Hk Nv Sv A. pose proof eps_small as EP.
  destruct (volume_near L x GE G0 G1 IR C0 C1 DT v _ Nv Sv) as (m0 & m1 & e & r & _ & _ & _ & _ & _ & _ & _ & _ & _ & Ne & Be & Er & N & _). exists r. split; [exact Er|].
  pose proof (T_pos x IR C0 C1) as TP. pose proof (deep_pos L x IR C0 C1 v _ Nv Sv) as PD.
  pose proof (attenuation_le x C0 C1 ltac:(destruct IR as (_ & St & _); now apply sized_pos in St)) as AT. set (T := depth x) in *. set (D := deep_value x) in *.
  assert (SM : forall c, 0 <= c <= 3000 -> 0 <= c * eps <= 1 / 2).
  { intros c Hc. split; [apply Rmult_le_pos; lra|]. apply Rle_trans with (3000 * two (-20)); [apply Rmult_le_compat; try lra; unfold eps; apply bpow_le; lia|]. change (two (-20)) with (/ 1048576). lra. }
  assert (E3 : 0 <= exp (3 * eps) - 1 <= 6 * eps) by (pose proof (exp_lin (3 * eps) ltac:(lra)); pose proof (exp_ineq1_le (3 * eps)); lra).
  assert (TE : T * (exp (3 * eps) - 1) <= T * (6 * eps)) by (apply Rmult_le_compat_l; lra).
  assert (Ne' : near ((1 + 6 * T) * eps) (attenuation x) e) by (eapply near_weak; [exact Ne|lra]).
  assert (N' : near ((11 + k) * eps) (D * (1 - e)) r) by (eapply near_weak; [exact N|lra]).
  apply near_bound in N'. apply near_bound in Ne'. rewrite (Rabs_pos_eq (attenuation x)) in Ne' by lra. rewrite (Rabs_pos_eq (D * (1 - e))) in N' by (apply Rmult_le_pos; lra).
  pose proof (exp_lin _ (SM (11 + k) ltac:(lra))) as L1. pose proof (exp_lin _ (SM (1 + 6 * T) ltac:(lra))) as L2.
  assert (X0 : (exp ((11 + k) * eps) - 1) * (D * (1 - e)) <= (2 * ((11 + k) * eps)) * D).
  { apply Rmult_le_compat; [pose proof (exp_ineq1_le ((11 + k) * eps)); pose proof (SM (11 + k) ltac:(lra)); lra|apply Rmult_le_pos; lra|exact L1|]. rewrite <- (Rmult_1_r D) at 2. apply Rmult_le_compat_l; lra. }
  assert (X1 : Rabs (e - attenuation x) <= 2 * ((1 + 6 * T) * eps) * attenuation x) by (eapply Rle_trans; [exact Ne'|]; apply Rmult_le_compat_r; lra).
  assert (X2 : D * Rabs (e - attenuation x) <= D * (2 * ((1 + 6 * T) * eps) * attenuation x)) by (apply Rmult_le_compat_l; lra).
  replace (volume_value x) with (D * (1 - attenuation x)) by (unfold D, deep_value, volume_value; ring).
  replace (r - D * (1 - attenuation x)) with ((r - D * (1 - e)) + D * (attenuation x - e)) by ring.
  eapply Rle_trans; [apply Rabs_triang|]. rewrite Rabs_mult, (Rabs_pos_eq D) by assumption. rewrite (Rabs_minus_sym (attenuation x) e). lra.
Qed.
Print Assumptions C98_volume_partial.

(** For layers that are not thin the relative error is bounded as well: by a multiple of (1 + 1/T) eps. *)
Lemma ratio_near a b c : 0 < b -> 0 <= c <= 1 / 2 -> Rabs (a - b) <= c * b -> near (2 * c) b a.
Proof.
  intros B C H. apply Rabs_le_between in H. exists (a / b). split; [|field; lra].
  pose proof (exp_ineq1_le (2 * c)). pose proof (exp_ineq1_le c) as E1. pose proof (exp_lin c C) as E2.
  assert (E3 : exp (- (2 * c)) <= 1 - c).
  { rewrite exp_Ropp. apply Rmult_le_reg_l with (exp (2 * c)); [apply exp_pos|]. rewrite Rinv_r by (pose proof (exp_pos (2 * c)); lra). nra. }
  split; apply Rmult_le_reg_r with b; try assumption; replace (a / b * b) with a by (field; lra); nra.
Qed.
Lemma volume_thick L x v k :
  good_exp L -> good_cos L (p_t0 x) -> good_cos L (p_tex x) -> in_range x -> 0 < cos (p_t0 x) -> 0 < cos (p_tex x) -> two (-43) <= depth x <= 300 ->
  0 <= k <= 1000 -> near (k * eps) (p_vol x) v -> sized (-60) 60 v ->
  let A := binary64 L in
  exists r, g_volume A (Fin (p_I0 x)) (Fin (p_omega x)) (f_cos A (Fin (p_t0 x))) (f_cos A (Fin (p_tex x))) (Fin (p_tau x)) (Fin v) (Fin (p_bsfr x)) = Fin r /\
    near ((35 + k + 4 / depth x) * eps) (volume_value x) r /\ sized (-900) 700 r /\ 0 <= volume_value x /\ 0 <= (41 + k + 4 / depth x) * eps <= 1 / 64.
Proof.
  intros GE G0 G1 IR C0 C1 DT Hk Nv Sv A. pose proof eps_small as EP.
  destruct (volume_near L x GE G0 G1 IR C0 C1 ltac:(lra) v _ Nv Sv) as (m0 & m1 & e & r & _ & _ & _ & _ & _ & _ & _ & _ & _ & Ne & Be & Er & N & Sr). exists r. split; [exact Er|].
  pose proof (deep_pos L x IR C0 C1 v _ Nv Sv) as PD. pose proof (two_pos (-43)) as P43.
  assert (AE : attenuation x = exp (- depth x)) by (unfold attenuation, depth; f_equal; ring).
  set (T := depth x) in *. set (D := deep_value x) in *. set (a := attenuation x) in *.
  assert (P : 0 < a) by (rewrite AE; apply exp_pos).
  (* T * a <= 1 - a *)
  assert (TA : T * a <= 1 - a).
  { assert (E : a * exp T = 1) by (rewrite AE, <- exp_plus; replace (- T + T) with 0 by ring; apply exp_0).
    pose proof (Rmult_le_compat_l a _ _ (Rlt_le _ _ P) (exp_ineq1_le T)) as Q. lra. }
  assert (IT : 0 < / T <= two 43) by (split; [apply Rinv_0_lt_compat; lra|]; change 43%Z with (- (-43))%Z; rewrite bpow_opp; apply Rinv_le_contravar; [exact P43|apply DT]).
  assert (E43 : two 43 * eps = two (-9)) by (unfold eps; rewrite <- bpow_plus; reflexivity).
  assert (IE : 0 < / T * eps <= two (-9)) by (split; [apply Rmult_lt_0_compat; lra|rewrite <- E43; apply Rmult_le_compat_r; lra]).
  assert (ES : eps <= two (-40)) by (unfold eps; apply bpow_le; lia).
  assert (V9 : two (-9) = / 512) by reflexivity. assert (V40 : two (-40) = / 1099511627776) by reflexivity.
  assert (E3 : 0 <= exp (3 * eps) - 1 <= 6 * eps) by (pose proof (exp_lin (3 * eps) ltac:(lra)); pose proof (exp_ineq1_le (3 * eps)); lra).
  assert (TE : T * (exp (3 * eps) - 1) <= T * (6 * eps)) by (apply Rmult_le_compat_l; lra).
  assert (Ne' : near ((1 + 6 * T) * eps) a e) by (eapply near_weak; [exact Ne|lra]).
  assert (TEP : 0 <= T * eps <= 300 * eps) by (split; [apply Rmult_le_pos; lra|apply Rmult_le_compat_r; lra]).
  apply near_bound in Ne'. rewrite (Rabs_pos_eq a) in Ne' by lra. pose proof (exp_lin ((1 + 6 * T) * eps) ltac:(lra)) as L2.
  assert (X : Rabs ((1 - e) - (1 - a)) <= (2 * (/ T * eps) + 12 * eps) * (1 - a)).
  { replace (1 - e - (1 - a)) with (- (e - a)) by ring. rewrite Rabs_Ropp. eapply Rle_trans; [exact Ne'|].
    apply Rle_trans with ((2 * ((1 + 6 * T) * eps)) * a); [apply Rmult_le_compat_r; lra|].
    replace (2 * ((1 + 6 * T) * eps) * a) with ((2 * (/ T * eps) + 12 * eps) * (T * a)) by (field; lra). apply Rmult_le_compat_l; lra. }
  assert (A1 : 0 < 1 - a) by (assert (0 < T * a) by (apply Rmult_lt_0_compat; lra); lra).
  pose proof (ratio_near _ _ (2 * (/ T * eps) + 12 * eps) A1 ltac:(lra) X) as NX.
  assert (VV : volume_value x = D * (1 - a)) by (unfold D, a, deep_value, volume_value; ring). rewrite VV.
  split; [|split; [exact Sr|split; [apply Rmult_le_pos; lra|]]].
  2: { unfold Rdiv. replace ((41 + k + 4 * / T) * eps) with (41 * eps + k * eps + 4 * (/ T * eps)) by ring. assert (0 <= k * eps <= 1000 * eps) by (split; [apply Rmult_le_pos; lra|apply Rmult_le_compat_r; lra]). lra. }
  eapply near_weak; [eapply near_trans; [exact (near_mul _ _ _ _ _ _ (near_refl D) NX)|exact N]|]. unfold Rdiv.
  replace ((35 + k + 4 * / T) * eps) with (35 * eps + k * eps + 4 * (/ T * eps)) by ring. lra.
Qed.
Theorem C98_volume_relative_partial : forall L x v k,
  good_exp L -> good_cos L (p_t0 x) -> good_cos L (p_tex x) -> in_range x -> 0 < cos (p_t0 x) -> 0 < cos (p_tex x) -> two (-43) <= depth x <= 300 ->
  0 <= k <= 1000 -> near (k * eps) (p_vol x) v -> sized (-60) 60 v ->
  let A := binary64 L in
  exists r, g_volume A (Fin (p_I0 x)) (Fin (p_omega x)) (f_cos A (Fin (p_t0 x))) (f_cos A (Fin (p_tex x))) (Fin (p_tau x)) (Fin v) (Fin (p_bsfr x)) = Fin r /\
    Rabs (r - volume_value x) <= 2 * (35 + k + 4 / depth x) * eps * volume_value x.
Proof.
  intros L x v k GE G0 G1 IR C0 C1 DT Hk Nv Sv A. destruct (volume_thick L x v k GE G0 G1 IR C0 C1 DT Hk Nv Sv) as (r & Er & N & _ & PV & B).
  exists r. split; [exact Er|]. apply near_bound in N. rewrite (Rabs_pos_eq (volume_value x)) in N by assumption. eapply Rle_trans; [exact N|]. apply Rmult_le_compat_r; [assumption|].
  pose proof eps_small. pose proof (two_pos (-43)). assert (0 < / depth x) by (apply Rinv_0_lt_compat; lra).
  replace (2 * (35 + k + 4 / depth x) * eps) with (2 * ((35 + k + 4 / depth x) * eps)) by ring. apply exp_lin. unfold Rdiv in *. split; [apply Rmult_le_pos; lra|]. lra.
Qed.
Print Assumptions C98_volume_relative_partial.

(** The refutation: with a correctly rounded np.exp the volume contribution of every layer with T <= 2^-57 is computed as 0. *)
Lemma fl_one y : 1 - two (-55) <= y <= 1 -> fl y = 1.
Proof.
  intros H. assert (F1 : generic_format radix2 b64 1) by (change 1 with (two 0); apply generic_format_bpow; vm_compute; discriminate).
  assert (LE : fl y <= 1) by (change 1 with (two 0); rewrite <- (fl_two 0) by lia; apply fl_le; rewrite two_0; lra).
  destruct (Rle_lt_or_eq_dec _ _ LE) as [LT|E]; [exfalso|exact E].
  assert (Fy : generic_format radix2 b64 (fl y)) by (apply generic_format_round; [apply FLT_exp_valid, prec53|apply valid_rnd_N]).
  destruct (round_N_pt radix2 b64 (fun z => negb (Z.even z)) y) as [_ RN]. specialize (RN 1 F1). fold (fl y) in RN.
  pose proof (two_pos (-55)). rewrite (Rabs_pos_eq (1 - y)) in RN by lra. apply Rabs_le_between in RN.
  pose proof (below_one (fl y) Fy LT) as B.
  assert (two (-53) = 4 * two (-55)) by (change (-53)%Z with (2 + -55)%Z; rewrite bpow_plus; reflexivity). lra.
Qed.
Definition rounded_exp (L : libm) : Prop := forall u, l_exp L (Fin u) = ieee (Fin (exp u)).
Lemma rounded_good L : rounded_exp L -> good_exp L.
Proof.
  intros RE u Hu. assert (U : exp (- u) <= 1) by (rewrite <- exp_0; apply exp_le; lra). pose proof (exp_pos (- u)) as P.
  exists (fl (exp (- u))). split; [rewrite RE; apply (ieee_fin _ 0); [lia|rewrite Rabs_pos_eq by lra; rewrite two_0; exact U]|].
  assert (Sz : sized (-800) 0 (exp (- u))).
  { right. split; [|rewrite two_0; exact U]. apply Rle_trans with (exp (- (500))); [|apply exp_le; lra].
    rewrite exp_Ropp. change (-800)%Z with (- (800))%Z. rewrite bpow_opp. apply Rinv_le_contravar; [apply exp_pos|].
    replace 500 with (INR 500) by (rewrite INR_IZR_INZ; reflexivity). eapply Rle_trans; [apply exp_nat|].
    rewrite pow_IZR. change (two 800) with (IZR (Z.pow_pos 2 800)). apply IZR_le. apply Z.leb_le. vm_compute. reflexivity. }
  split; [apply (fl_near (-800) 0); [lia|exact Sz]|]. split; [apply generic_format_round; [apply FLT_exp_valid, prec53|apply valid_rnd_N]|].
  rewrite <- two_0. rewrite <- (fl_two 0) by lia. apply fl_le. rewrite two_0. exact U.
Qed.
Theorem C98_volume_refuted : forall L x v dv,
  rounded_exp L -> good_cos L (p_t0 x) -> good_cos L (p_tex x) -> in_range x -> 0 < cos (p_t0 x) -> 0 < cos (p_tex x) ->
  near dv (p_vol x) v -> sized (-60) 60 v -> 0 < depth x <= two (-57) -> 0 < deep_value x ->
  let A := binary64 L in
  g_volume A (Fin (p_I0 x)) (Fin (p_omega x)) (f_cos A (Fin (p_t0 x))) (f_cos A (Fin (p_tex x))) (Fin (p_tau x)) (Fin v) (Fin (p_bsfr x)) = Fin 0 /\
  0 < volume_value x /\ forall d, ~ near d (volume_value x) 0.
Proof.
  intros L x v dv RE G0 G1 IR C0 C1 Nv Sv DT PD A. pose proof eps_small as EP.
  assert (T4 : depth x <= 300) by (assert (two (-57) <= two 0) by (apply bpow_le; lia); rewrite two_0 in *; lra).
  destruct (volume_near L x (rounded_good L RE) G0 G1 IR C0 C1 T4 v _ Nv Sv) as (m0 & m1 & e & r & _ & _ & N0 & S0 & P0 & N1 & S1 & P1 & Ea & _ & _ & Er & N & _).
  assert (VV : 0 < volume_value x).
  { replace (volume_value x) with (deep_value x * (1 - attenuation x)) by (unfold deep_value, volume_value; ring). apply Rmult_lt_0_compat; [assumption|].
    assert (attenuation x < 1); [|lra]. unfold attenuation. rewrite <- exp_0. apply exp_increasing. unfold depth in DT. lra. }
  split; [|split; [exact VV|]].
  - fold A in Er. rewrite Er. f_equal. destruct (arg_ok L x IR C0 C1 m0 m1 N0 S0 P0 N1 S1 P1) as (S & Es & Ns & _).
    assert (SB : 0 <= S <= two (-56)).
    { split; [apply (near_pos _ _ _ Ns); lra|]. apply near_bound in Ns. rewrite (Rabs_pos_eq (depth x)) in Ns by lra. apply Rabs_le_between in Ns.
      assert ((exp (3 * eps) - 1) * depth x <= 1 * depth x) by (apply Rmult_le_compat_r; [lra|]; pose proof (exp_lin (3 * eps) ltac:(lra)); lra).
      assert (two (-56) = 2 * two (-57)) by (change (-56)%Z with (1 + -57)%Z; rewrite bpow_plus; reflexivity). lra. }
    unfold g_atten in Ea. rewrite Es in Ea. cbn [f_exp binary64] in Ea. rewrite RE in Ea.
    assert (X : fl (exp (- S)) = 1).
    { apply fl_one. pose proof (exp_ineq1_le (- S)). assert (two (-56) <= two (-55)) by (apply bpow_le; lia). assert (exp (- S) <= 1) by (rewrite <- exp_0; apply exp_le; lra). lra. }
    rewrite (ieee_fin _ 0), X in Ea by (try lia; rewrite Rabs_pos_eq by (left; apply exp_pos); rewrite two_0, <- exp_0; apply exp_le; lra). injection Ea as <-.
    destruct N as (k & _ & ->). ring.
  - intros d N'. pose proof (near_zero _ _ _ N' eq_refl). lra.
Qed.
Print Assumptions C98_volume_refuted.

(** Instances: correctly rounded exp and cos; a layer of optical depth 4 and one of optical depth 2^-58, both observed under 60 degrees. *)
Definition lib_ex : libm := mk_libm (fun a => ieee (xexp a)) (fun a => ieee (xlog a)) (fun a => ieee (xexpi a)) (fun m a => ieee (xexpn m a)) (fun a k => ieee (xpow a k)) (fun a => ieee (xcos a)).
Definition layer (tau : R) : point := mk_point 2 (PI / 3) (PI / 3) tau (1 / 2) 1 (1 / 4) (1 / 8) (1 / 4).
Lemma two_num : two (-1) = 1 / 2 /\ two (-2) = 1 / 4 /\ two (-3) = 1 / 8 /\ two 1 = 2.
Proof. repeat split; simpl; lra. Qed.
Lemma sized_two k : (-60 <= k <= 60)%Z -> sized (-60) 60 (two k).
Proof. intros H. right. split; apply bpow_le; lia. Qed.
Lemma fmt_two k : (-1074 <= k)%Z -> generic_format radix2 b64 (two k).
Proof. intros H. apply generic_format_FLT_bpow; [exact prec53|exact H]. Qed.
Lemma layer_ok k : (-60 <= k <= 60)%Z -> rounded_exp lib_ex /\ good_cos lib_ex (PI / 3) /\ in_range (layer (two k)) /\ 0 < cos (PI / 3) /\
  near (0 * eps) (1 / 4) (1 / 4) /\ sized (-60) 60 (1 / 4) /\ near (0 * eps) (1 / 8) (1 / 8) /\ sized (-60) 60 (1 / 8) /\
  depth (layer (two k)) = two (k + 2) /\ 0 < deep_value (layer (two k)).
Proof.
  intros Hk. destruct two_num as (T1 & T2 & T3 & T4). pose proof cos_PI3 as C. pose proof eps_small as EP.
  split; [intros u; reflexivity|]. split.
  { exists (two (-1)). split; [cbn [l_cos lib_ex xcos]; rewrite C; replace (1 / 2) with (two (-1)) by exact T1; rewrite (ieee_fin _ 0) by (try lia; rewrite Rabs_pos_eq by apply bpow_ge_0; apply bpow_le; lia); now rewrite fl_two by lia|].
    split; [rewrite C, T1; eapply near_weak; [apply near_refl|lra]|]. split; [apply bpow_le; lia|rewrite T1; lra]. }
  split. { unfold in_range, layer; cbn [p_I0 p_tau p_omega p_norm p_bsfr]. replace (1 / 4) with (two (-2)) by exact T2. replace (1 / 2) with (two (-1)) by exact T1. replace 2 with (two 1) by exact T4. rewrite <- two_0.
    repeat split; try (apply sized_two; lia); [right; split; apply bpow_le; lia|apply fmt_two; lia]. }
  split; [lra|]. replace (1 / 4) with (two (-2)) by exact T2. replace (1 / 8) with (two (-3)) by exact T3. rewrite Rmult_0_l. split; [apply near_refl|]. split; [apply sized_two; lia|]. split; [apply near_refl|]. split; [apply sized_two; lia|].
  split; [unfold depth, layer; cbn [p_tau p_t0 p_tex]; rewrite C, bpow_plus; change (two 2) with 4; field|]. unfold deep_value, layer; cbn [p_I0 p_t0 p_tex p_tau p_omega p_norm p_bsfr p_vol p_brdf]. rewrite C. lra.
Qed.
Example C97_nonvacuous : let x := layer 1 in
  exists r, g_surface (binary64 lib_ex) (Fin (p_I0 x)) (f_cos (binary64 lib_ex) (Fin (p_t0 x))) (f_cos (binary64 lib_ex) (Fin (p_tex x))) (Fin (1 / 4)) (Fin (p_tau x)) (Fin (p_norm x)) (Fin (p_bsfr x)) = Fin r /\
    Rabs (r - surface_value x) <= 2 * (9 + 0 + 6 * 4) * eps * surface_value x.
Proof.
  intros x. destruct (layer_ok 0 ltac:(lia)) as (RE & G & IR & C & N & S & _ & _ & D & _). rewrite two_0 in *. change (two (0 + 2)) with 4 in D. fold x in IR, D.
  pose proof (C97_surface lib_ex x (1 / 4) 0 (rounded_good _ RE) G G IR C C ltac:(lra) ltac:(lra) N S) as K. rewrite D in K. exact K.
Qed.
Example C97_nonvacuous_sigma0 : let x := layer 1 in
  exists r, g_sig0 (binary64 lib_ex) (Fin (p_I0 x)) (f_cos (binary64 lib_ex) (Fin (p_t0 x)))
      (g_surface (binary64 lib_ex) (Fin (p_I0 x)) (f_cos (binary64 lib_ex) (Fin (p_t0 x))) (f_cos (binary64 lib_ex) (Fin (p_tex x))) (Fin (1 / 4)) (Fin (p_tau x)) (Fin (p_norm x)) (Fin (p_bsfr x))) = Fin r /\
    Rabs (r - unit_factor true x * surface_value x) <= 2 * (15 + 0 + 6 * 4) * eps * (unit_factor true x * surface_value x).
Proof.
  intros x. destruct (layer_ok 0 ltac:(lia)) as (RE & G & IR & C & N & S & _ & _ & D & _). rewrite two_0 in *. change (two (0 + 2)) with 4 in D. fold x in IR, D.
  assert (I : p_I0 x <> 0) by (cbn; lra).
  pose proof (C97_surface_sigma0 lib_ex x (1 / 4) 0 (rounded_good _ RE) G G IR C C ltac:(lra) I ltac:(lra) N S) as K. rewrite D in K. exact K.
Qed.
Example C98_nonvacuous : (let x := layer 1 in
  exists r, g_volume (binary64 lib_ex) (Fin (p_I0 x)) (Fin (p_omega x)) (f_cos (binary64 lib_ex) (Fin (p_t0 x))) (f_cos (binary64 lib_ex) (Fin (p_tex x))) (Fin (p_tau x)) (Fin (1 / 8)) (Fin (p_bsfr x)) = Fin r /\
    Rabs (r - volume_value x) <= 2 * (11 + 0 + (1 + 6 * 4) * attenuation x) * eps * deep_value x) /\
  let x := layer (two (-60)) in
  g_volume (binary64 lib_ex) (Fin (p_I0 x)) (Fin (p_omega x)) (f_cos (binary64 lib_ex) (Fin (p_t0 x))) (f_cos (binary64 lib_ex) (Fin (p_tex x))) (Fin (p_tau x)) (Fin (1 / 8)) (Fin (p_bsfr x)) = Fin 0 /\ 0 < volume_value x.
Proof.
  split; intros x.
  - destruct (layer_ok 0 ltac:(lia)) as (RE & G & IR & C & _ & _ & N & S & D & _). rewrite two_0 in *. change (two (0 + 2)) with 4 in D. fold x in IR, D.
    pose proof (C98_volume_partial lib_ex x (1 / 8) 0 (rounded_good _ RE) G G IR C C ltac:(lra) ltac:(lra) N S) as K. rewrite D in K. exact K.
  - destruct (layer_ok (-60) ltac:(lia)) as (RE & G & IR & C & _ & _ & N & S & D & P). fold x in IR, D, P.
    destruct (C98_volume_refuted lib_ex x (1 / 8) _ RE G G IR C C N S ltac:(rewrite D; split; [apply two_pos|apply bpow_le; lia]) P) as (E & V & _). split; assumption.
Qed.
Example C98_nonvacuous_relative : let x := layer 1 in
  exists r, g_volume (binary64 lib_ex) (Fin (p_I0 x)) (Fin (p_omega x)) (f_cos (binary64 lib_ex) (Fin (p_t0 x))) (f_cos (binary64 lib_ex) (Fin (p_tex x))) (Fin (p_tau x)) (Fin (1 / 8)) (Fin (p_bsfr x)) = Fin r /\
    Rabs (r - volume_value x) <= 2 * (35 + 0 + 4 / 4) * eps * volume_value x.
Proof.
  intros x. destruct (layer_ok 0 ltac:(lia)) as (RE & G & IR & C & _ & _ & N & S & D & _). rewrite two_0 in *. change (two (0 + 2)) with 4 in D. fold x in IR, D.
  assert (B : two (-43) <= two 0) by (apply bpow_le; lia). rewrite two_0 in B.
  pose proof (C98_volume_relative_partial lib_ex x (1 / 8) 0 (rounded_good _ RE) G G IR C C ltac:(lra) ltac:(lra) N S) as K. rewrite D in K. exact K.
Qed.
