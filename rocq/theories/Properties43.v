(** Rounding errors of the total without interaction in decibels: C107. *)
From Flocq Require Import Core Relative.
From Coquelicot Require Import Rcomplements.
From Coq Require Import ZArith Reals Lra Lia List.
From Verif Require Import Spec Float Shape.
From Verif Require Import Elem Properties35 Properties42.
Open Scope R_scope.

(** ** Model *)
(** _calc.py:708-710 _surface_volume and _calc.py:556-558 calc with int_Q=False, first row: surface + volume, before the conversion *)
Definition g_total (A : arith) (i0 om mu0 muex srf v tau norm bsf : xr) : xr :=
  f_add A (g_surface A i0 mu0 muex srf tau norm bsf) (g_volume A i0 om mu0 muex tau v bsf).

(** *** C107.  Rounding errors of the total without interaction. *)
Theorem C107_total : forall L lg x srf v k,
  good_exp L -> good_cos L (p_t0 x) -> good_cos L (p_tex x) -> good_log10 lg ->
  in_range x -> 0 < cos (p_t0 x) -> 0 < cos (p_tex x) -> two (-43) <= depth x <= 300 -> p_I0 x <> 0 ->
  0 <= k <= 1000 -> near (k * eps) (p_brdf x) srf -> sized (-60) 60 srf -> near (k * eps) (p_vol x) v -> sized (-60) 60 v ->
  let A := binary64 L in
  let linear := g_sig0 A (Fin (p_I0 x)) (f_cos A (Fin (p_t0 x)))
      (g_total A (Fin (p_I0 x)) (Fin (p_omega x)) (f_cos A (Fin (p_t0 x))) (f_cos A (Fin (p_tex x))) (Fin srf) (Fin v) (Fin (p_tau x)) (Fin (p_norm x)) (Fin (p_bsfr x))) in
  let S := unit_factor true x * (surface_value x + volume_value x) in
  let c := 42 + k + Rmax (6 * depth x) (4 / depth x) in
  (exists r, linear = Fin r /\ Rabs (r - S) <= 2 * c * eps * S) /\
  (0 < S -> exists z, g_dB A lg linear = Fin z /\ Rabs (z - level S) <= (6 * c + 1 + 3 * Rabs (level S)) * eps) /\
  (S = 0 -> g_dB A lg linear = NInf) /\ 0 <= S.
Proof.
  intros L lg x srf v k GE G0 G1 GL IR C0 C1 DT PI0 Hk Nb Sb Nv Sv A linear S c. pose proof eps_small as EP. pose proof PI_RGT_0 as PP. pose proof (two_pos (-43)) as P43.
  destruct (surface_ok L x GE G0 G1 IR C0 C1 ltac:(lra) srf (k * eps) ltac:(apply Rmult_le_pos; lra) Nb Sb) as (s & Es & Ns & Ss). fold A in Es.
  destruct (volume_thick L x v k GE G0 G1 IR C0 C1 DT Hk Nv Sv) as (w & Ew & Nw & Sw & PV & _). fold A in Ew.
  pose proof (surface_pos x srf _ IR C0 C1 Nb Sb) as PS.
  set (T := depth x) in *. set (m := Rmax (6 * T) (4 / T)) in *.
  assert (M1 : 6 * T <= m) by apply Rmax_l. assert (M2 : 4 / T <= m) by apply Rmax_r.
  assert (E3 : 0 <= exp (3 * eps) - 1 <= 6 * eps) by (pose proof (exp_lin (3 * eps) ltac:(lra)); pose proof (exp_ineq1_le (3 * eps)); lra).
  assert (TE : T * (exp (3 * eps) - 1) <= T * (6 * eps)) by (apply Rmult_le_compat_l; lra).
  assert (ME : 6 * T * eps <= m * eps /\ 4 / T * eps <= m * eps) by (split; apply Rmult_le_compat_r; lra).
  assert (Ns' : near ((35 + k + m) * eps) (surface_value x) s) by (eapply near_weak; [exact Ns|lra]).
  assert (Nw' : near ((35 + k + m) * eps) (volume_value x) w) by (eapply near_weak; [exact Nw|apply Rmult_le_compat_r; lra]).
  destruct (op_add L (-900) 700 _ _ _ _ _ (sized_weak _ _ (-900) 700 _ Ss ltac:(lia) ltac:(lia)) Sw Ns' Nw' PS PV ltac:(lia) ltac:(lia) ltac:(lia)) as (t & Et & St & Nt). fold A in Et.
  assert (Si : sized (-60) 60 (p_I0 x)) by apply IR.
  destruct (sigma0_near L x t _ _ _ _ G0 Si PI0 Nt St ltac:(lia) ltac:(lia)) as (r & Er & Nr & Sr). fold A in Er. fold S in Nr.
  assert (LR : linear = Fin r) by (unfold linear, g_total; rewrite Es, Ew, Et; exact Er). rewrite LR.
  assert (PT : 0 <= S).
  { pose proof (sized_pos _ _ _ Si). apply Rmult_le_pos; [|lra]. unfold unit_factor. apply Rmult_le_pos; [apply Rmult_le_pos; lra|left; apply Rinv_0_lt_compat; lra]. }
  replace ((35 + k + m) * eps + eps + 6 * eps) with (c * eps) in Nr by (unfold c; fold m; ring).
  assert (IT : 0 < / T <= two 43) by (split; [apply Rinv_0_lt_compat; lra|]; change 43%Z with (- (-43))%Z; rewrite bpow_opp; apply Rinv_le_contravar; [exact P43|apply DT]).
  assert (E43 : two 43 * eps = two (-9)) by (unfold eps; rewrite <- bpow_plus; reflexivity).
  assert (ES : eps <= two (-40)) by (unfold eps; apply bpow_le; lia).
  assert (V9 : two (-9) = / 512) by reflexivity. assert (V40 : two (-40) = / 1099511627776) by reflexivity.
  assert (B : 0 <= c * eps <= 1 / 64).
  { split; [apply Rmult_le_pos; unfold c; fold m; lra|]. assert (m <= 1800 + 4 * two 43) by (apply Rmax_lub; unfold Rdiv; lra).
    assert (m * eps <= (1800 + 4 * two 43) * eps) by (apply Rmult_le_compat_r; lra). assert (k * eps <= 1000 * eps) by (apply Rmult_le_compat_r; lra). unfold c. fold m. lra. }
  split; [|split; [|split; [|exact PT]]].
  - exists r. split; [reflexivity|]. apply near_bound in Nr. rewrite (Rabs_pos_eq S) in Nr by assumption. eapply Rle_trans; [exact Nr|]. apply Rmult_le_compat_r; [assumption|].
    replace (2 * c * eps) with (2 * (c * eps)) by ring. apply exp_lin. lra.
  - intros P. assert (R0 : r <> 0) by (intros W; pose proof (near_zero _ _ _ Nr W); lra). destruct Sr as [->|Sr]; [contradiction|].
    destruct (C105_conversion L lg S r _ GL P Nr ltac:(lra) (sigma0_format _ _ _ _ _ Er) Sr) as (z & Ez & H). exists z. split; [exact Ez|]. eapply Rle_trans; [exact H|]. apply Req_le. ring.
  - intros E. destruct Nr as (q & _ & ->). rewrite E, Rmult_0_l. unfold g_dB, A. destruct GL as [-> _]. rewrite ten. cbn. rewrite rsign_pos by lra. reflexivity.
Qed.
Print Assumptions C107_total.
(** for every optical depth up to 300, thin layers included, the error in intensity units is a multiple of eps of the surface contribution plus
    the contribution of an infinitely deep layer: a thin layer cannot spoil the total *)
Theorem C107_all_depths : forall L x srf v k,
  good_exp L -> good_cos L (p_t0 x) -> good_cos L (p_tex x) ->
  in_range x -> 0 < cos (p_t0 x) -> 0 < cos (p_tex x) -> depth x <= 300 ->
  0 <= k <= 1000 -> near (k * eps) (p_brdf x) srf -> sized (-60) 60 srf -> near (k * eps) (p_vol x) v -> sized (-60) 60 v ->
  let A := binary64 L in
  exists r, g_total A (Fin (p_I0 x)) (Fin (p_omega x)) (f_cos A (Fin (p_t0 x))) (f_cos A (Fin (p_tex x))) (Fin srf) (Fin v) (Fin (p_tau x)) (Fin (p_norm x)) (Fin (p_bsfr x)) = Fin r /\
    Rabs (r - (surface_value x + volume_value x)) <= 2 * (20 + k + 6 * depth x) * eps * (surface_value x + deep_value x).
Proof.
  intros L x srf v k GE G0 G1 IR C0 C1 DT Hk Nb Sb Nv Sv A. pose proof eps_small as EP. assert (KE : 0 <= k * eps) by (apply Rmult_le_pos; lra).
  destruct (surface_ok L x GE G0 G1 IR C0 C1 DT srf (k * eps) KE Nb Sb) as (s & Es & Ns & Ss). fold A in Es.
  destruct (volume_near L x GE G0 G1 IR C0 C1 DT v _ Nv Sv) as (m0 & m1 & e & w & _ & _ & _ & _ & _ & _ & _ & _ & _ & _ & _ & Ew & _ & Sw). fold A in Ew.
  destruct (C98_volume_partial L x v k GE G0 G1 IR C0 C1 DT Hk Nv Sv) as (w' & Ew' & Bw). fold A in Ew'. rewrite Ew in Ew'. injection Ew' as <-.
  pose proof (surface_pos x srf _ IR C0 C1 Nb Sb) as PS. pose proof (deep_pos L x IR C0 C1 v _ Nv Sv) as PD. pose proof (T_pos x IR C0 C1) as TP.
  pose proof (attenuation_le x C0 C1 ltac:(destruct IR as (_ & St & _); now apply sized_pos in St)) as AT.
  unfold g_total. rewrite Es, Ew.
  destruct (op_round (-900) 701 (s + w) ltac:(lia) ltac:(lia) ltac:(lia) (sized_add _ _ _ _ (sized_weak _ _ (-900) 700 _ Ss ltac:(lia) ltac:(lia)) Sw)) as (t & Et & _ & Nt).
  exists t. split; [exact Et|].
  assert (AE : attenuation x = exp (- depth x)) by (unfold attenuation, depth; f_equal; ring).
  set (T := depth x) in *. set (D := deep_value x) in *. set (a := attenuation x) in *. set (S := surface_value x) in *.
  assert (VV : volume_value x = D * (1 - a)) by (unfold D, a, deep_value, volume_value; ring). rewrite VV in *.
  assert (TA : T * a <= 1 - a).
  { assert (E : a * exp T = 1) by (rewrite AE, <- exp_plus; replace (- T + T) with 0 by ring; apply exp_0).
    pose proof (Rmult_le_compat_l a _ _ (Rlt_le _ _ (proj1 AT)) (exp_ineq1_le T)) as Q. lra. }
  assert (E3 : 0 <= exp (3 * eps) - 1 <= 6 * eps) by (pose proof (exp_lin (3 * eps) ltac:(lra)); pose proof (exp_ineq1_le (3 * eps)); lra).
  assert (TE : T * (exp (3 * eps) - 1) <= T * (6 * eps)) by (apply Rmult_le_compat_l; lra).
  assert (ES : eps <= two (-40)) by (unfold eps; apply bpow_le; lia). assert (V40 : two (-40) = / 1099511627776) by reflexivity.
  assert (TEP : 0 <= T * eps <= 300 * eps) by (split; [apply Rmult_le_pos; lra|apply Rmult_le_compat_r; lra]).
  assert (KE' : k * eps <= 1000 * eps) by (apply Rmult_le_compat_r; lra).
  (* the surface contribution *)
  assert (Bs : Rabs (s - S) <= (18 * eps + 2 * (k * eps) + 12 * (T * eps)) * S).
  { apply (near_weak _ ((9 + k + 6 * T) * eps)) in Ns; [|lra]. apply near_bound in Ns. rewrite (Rabs_pos_eq S) in Ns by assumption. eapply Rle_trans; [exact Ns|]. apply Rmult_le_compat_r; [assumption|].
    replace (18 * eps + 2 * (k * eps) + 12 * (T * eps)) with (2 * ((9 + k + 6 * T) * eps)) by ring. apply exp_lin. lra. }
  (* the volume contribution *)
  assert (Bv : Rabs (w - D * (1 - a)) <= (36 * eps + 2 * (k * eps)) * D).
  { eapply Rle_trans; [exact Bw|]. apply Rmult_le_compat_r; [assumption|]. assert (eps * ((1 + 6 * T) * a) <= eps * 7) by (apply Rmult_le_compat_l; lra). lra. }
  (* the sum *)
  assert (Bt : Rabs (t - (s + w)) <= 2 * eps * (s + w)).
  { apply near_bound in Nt. pose proof (sized_pos _ _ _ Ss). pose proof (sized_pos _ _ _ Sw). rewrite (Rabs_pos_eq (s + w)) in Nt by lra. eapply Rle_trans; [exact Nt|]. apply Rmult_le_compat_r; [lra|].
    apply exp_lin. lra. }
  assert (Hs : s <= 2 * S).
  { apply Rabs_le_between in Bs. assert ((18 * eps + 2 * (k * eps) + 12 * (T * eps)) * S <= 1 * S) by (apply Rmult_le_compat_r; lra). lra. }
  assert (Hw : w <= 2 * D).
  { apply Rabs_le_between in Bv. assert ((36 * eps + 2 * (k * eps)) * D <= 1 * D) by (apply Rmult_le_compat_r; lra). assert (0 <= D * a) by (apply Rmult_le_pos; lra). lra. }
  assert (Ht : 2 * eps * (s + w) <= 2 * eps * (2 * (S + D))) by (apply Rmult_le_compat_l; lra).
  replace (t - (S + D * (1 - a))) with ((t - (s + w)) + ((s - S) + (w - D * (1 - a)))) by ring.
  eapply Rle_trans; [apply Rabs_triang|]. pose proof (Rabs_triang (s - S) (w - D * (1 - a))) as Q.
  assert (0 <= T * eps * D) by (apply Rmult_le_pos; lra). assert (0 <= eps * S) by (apply Rmult_le_pos; lra). assert (0 <= eps * D) by (apply Rmult_le_pos; lra).
  replace (2 * (20 + k + 6 * T) * eps * (S + D)) with (40 * (eps * S) + 40 * (eps * D) + 2 * (k * eps) * S + 2 * (k * eps) * D + 12 * (T * eps) * S + 12 * (T * eps * D)) by ring. lra.
Qed.
Print Assumptions C107_all_depths.
Example C107_nonvacuous : let x := layer 1 in let A := binary64 lib_ex in let S := unit_factor true x * (surface_value x + volume_value x) in
  0 < S /\
  exists z, g_dB A lg_ex (g_sig0 A (Fin (p_I0 x)) (f_cos A (Fin (p_t0 x)))
      (g_total A (Fin (p_I0 x)) (Fin (p_omega x)) (f_cos A (Fin (p_t0 x))) (f_cos A (Fin (p_tex x))) (Fin (1 / 4)) (Fin (1 / 8)) (Fin (p_tau x)) (Fin (p_norm x)) (Fin (p_bsfr x)))) = Fin z /\
    Rabs (z - level S) <= (397 + 3 * Rabs (level S)) * eps.
Proof.
  intros x A S. destruct (layer_ok 0 ltac:(lia)) as (RE & G & IR & C & N & Sb & Nv & Sv & D & PD). rewrite two_0 in *. change (two (0 + 2)) with 4 in D. fold x in IR, D, PD.
  assert (I : p_I0 x <> 0) by (cbn; lra). assert (B : two (-43) <= two 0) by (apply bpow_le; lia). rewrite two_0 in B.
  destruct (C107_total lib_ex lg_ex x (1 / 4) (1 / 8) 0 (rounded_good _ RE) G G lg_ex_good IR C C ltac:(lra) I ltac:(lra) N Sb Nv Sv) as (_ & K & _ & _). rewrite D in K.
  replace (6 * (42 + 0 + Rmax (6 * 4) (4 / 4)) + 1) with 397 in K by (rewrite Rmax_left by lra; ring).
  assert (P : 0 < S); [|split; [exact P|exact (K P)]].
  pose proof PI_RGT_0 as PP. pose proof (surface_pos x _ _ IR C C N Sb) as PS.
  assert (PV : 0 < volume_value x).
  { replace (volume_value x) with (deep_value x * (1 - attenuation x)) by (unfold deep_value, volume_value; ring). apply Rmult_lt_0_compat; [exact PD|].
    assert (attenuation x < 1); [|lra]. unfold attenuation. rewrite <- exp_0. apply exp_increasing. unfold depth in D. lra. }
  unfold S. apply Rmult_lt_0_compat; [|lra]. unfold unit_factor. cbn [p_I0 p_t0 x layer]. apply Rmult_lt_0_compat; [apply Rmult_lt_0_compat; lra|lra].
Qed.
Example C107_nonvacuous_thin : let x := layer (two (-60)) in let A := binary64 lib_ex in
  exists r, g_total A (Fin (p_I0 x)) (Fin (p_omega x)) (f_cos A (Fin (p_t0 x))) (f_cos A (Fin (p_tex x))) (Fin (1 / 4)) (Fin (1 / 8)) (Fin (p_tau x)) (Fin (p_norm x)) (Fin (p_bsfr x)) = Fin r /\
    Rabs (r - (surface_value x + volume_value x)) <= 2 * (20 + 0 + 6 * two (-58)) * eps * (surface_value x + deep_value x).
Proof.
  intros x A. destruct (layer_ok (-60) ltac:(lia)) as (RE & G & IR & C & N & Sb & Nv & Sv & D & _). fold x in IR, D. change (-60 + 2)%Z with (-58)%Z in D.
  assert (B : two (-58) <= two 0) by (apply bpow_le; lia). rewrite two_0 in B.
  pose proof (C107_all_depths lib_ex x (1 / 4) (1 / 8) 0 (rounded_good _ RE) G G IR C C ltac:(lra) ltac:(lra) N Sb Nv Sv) as K. rewrite D in K. exact K.
Qed.
