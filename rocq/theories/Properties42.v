(** Rounding errors of results in decibels: C105, C106. *)
From Flocq Require Import Core Relative.
From Coquelicot Require Import Rcomplements.
From Coq Require Import ZArith Reals Lra Lia List.
From Verif Require Import Spec Float Shape.
From Verif Require Import Elem Properties35.
Open Scope R_scope.

(** ** Model *)
(** _calc.py:727-728 _convert_sig0_db with dB=True: 10.0 * np.log10(ret); [lg] is np.log10 *)
Definition g_dB (A : arith) (lg : xr -> xr) (val : xr) : xr := f_mul A (f_num A 10) (lg val).
(** with exact arithmetic this is the conversion of the rest of the model *)
Lemma exact_dB i0 mu0 v : g_dB exact xlog10 (g_sig0 exact i0 mu0 v) = x_convert true true i0 mu0 v.
Proof. reflexivity. Qed.

(** ** Vocabulary *)
(** the level of a positive number in decibels *)
Definition level (v : R) : R := 10 * (ln v / ln 10).
(** np.log10 has a relative error of at most eps on the doubles between 2^-1020 and 2^1000; it is -inf at 0 *)
Definition good_log10 (lg : xr -> xr) : Prop :=
  lg (Fin 0) = NInf /\ forall v, generic_format radix2 b64 v -> two (-1020) <= v <= two 1000 -> exists y, lg (Fin v) = Fin y /\ near eps (ln v / ln 10) y.

(** ** The conversion *)
Lemma ten L : f_num (binary64 L) 10 = Fin 10.
Proof.
  assert (F : fl 10 = 10).
  { apply round_generic; [apply valid_rnd_N|]. apply generic_format_FLT. apply (FLT_spec _ _ _ _ (Float radix2 10 0)); [unfold F2R; simpl; ring|simpl; lia|simpl; lia]. }
  assert (E : ieee (Fin 10) = Fin 10).
  { rewrite (ieee_fin _ 4), F; [reflexivity|lia|]. rewrite Rabs_pos_eq by lra. change (two 4) with 16. lra. }
  exact E.
Qed.
Lemma ieee_format a r : ieee a = Fin r -> generic_format radix2 b64 r.
Proof.
  destruct a as [u| | |]; cbn [ieee]; try discriminate. destruct (Rle_dec _ _); [discriminate|]. destruct (Rle_dec _ _); [discriminate|]. intros E. injection E as <-.
  apply generic_format_round; [apply FLT_exp_valid, prec53|apply valid_rnd_N].
Qed.
Lemma sigma0_format L i0 mu0 v r : g_sig0 (binary64 L) i0 mu0 v = Fin r -> generic_format radix2 b64 r.
Proof. exact (ieee_format _ _). Qed.
Lemma ln10 : 2 <= ln 10.
Proof.
  rewrite <- (ln_exp 2). apply Rcomplements.ln_le; [apply exp_pos|]. replace 2 with (1 + 1) by ring. rewrite exp_plus. pose proof exp_le_3. pose proof (exp_pos 1). nra.
Qed.
Lemma fl_abs w : Rabs (fl w - w) <= eps / 2 * Rabs w + two (-1075).
Proof.
  destruct (relative_error_N_FLT'_ex radix2 (-1074) 53 eq_refl (fun z => negb (Z.even z)) w) as (d & h & D & H & _ & E). fold (fl w) in E.
  rewrite E. replace (w * (1 + d) + h - w) with (w * d + h) by ring. eapply Rle_trans; [apply Rabs_triang|]. rewrite Rabs_mult.
  assert (H' : Rabs h <= two (-1075)).
  { eapply Rle_trans; [exact H|]. change (-1074)%Z with (1 + -1075)%Z. rewrite bpow_plus. change (two 1) with 2. lra. }
  assert (D' : Rabs d <= eps / 2).
  { eapply Rle_trans; [exact D|]. assert (U : u_ro radix2 53 = eps / 2) by (unfold u_ro; change (two (- (53) + 1)) with eps; lra). rewrite U. pose proof eps_small.
    apply Rmult_le_reg_r with (1 + eps / 2); [lra|]. replace (eps / 2 / (1 + eps / 2) * (1 + eps / 2)) with (eps / 2) by (field; lra). nra. }
  pose proof (Rmult_le_compat_l (Rabs w) _ _ (Rabs_pos w) D'). lra.
Qed.
Lemma two_exp n : two (Z.of_nat n) <= exp (INR n).
Proof.
  induction n as [|n IH]; [simpl; rewrite exp_0; lra|]. rewrite Nat2Z.inj_succ, <- Z.add_1_l, bpow_plus, S_INR, Rplus_comm, exp_plus. change (two 1) with 2.
  pose proof (exp_ineq1_le 1). pose proof (two_pos (Z.of_nat n)). apply Rmult_le_compat; lra.
Qed.
Lemma ln_range v : two (-1020) <= v <= two 1000 -> Rabs (ln v) <= 1020.
Proof.
  intros [A B]. pose proof (two_pos (-1020)) as P. pose proof (two_exp 1020) as Q. change (Z.of_nat 1020) with 1020%Z in Q.
  replace (INR 1020) with 1020 in Q by (rewrite INR_IZR_INZ; reflexivity).
  apply Rabs_le. split.
  - rewrite <- (ln_exp (- (1020))). apply Rcomplements.ln_le; [apply exp_pos|]. eapply Rle_trans; [|exact A]. rewrite exp_Ropp. change (-1020)%Z with (- (1020))%Z. rewrite bpow_opp.
    apply Rinv_le_contravar; [apply two_pos|exact Q].
  - rewrite <- (ln_exp 1020). apply Rcomplements.ln_le; [lra|]. assert (two 1000 <= two 1020) by (apply bpow_le; lia). lra.
Qed.

(** *** C105.  Rounding errors in decibels. *)
(** a computed number [r] that equals [v] up to a factor between exp(-d) and exp(d) has the level of [v] up to 6 d + (1 + 3 |level|) eps *)
Theorem C105_conversion : forall L lg v r d,
  good_log10 lg -> 0 < v -> near d v r -> 0 <= d <= 1 / 8 -> generic_format radix2 b64 r -> two (-1020) <= r <= two 1000 ->
  exists z, g_dB (binary64 L) lg (Fin r) = Fin z /\ Rabs (z - level v) <= 6 * d + (1 + 3 * Rabs (level v)) * eps.
Proof.
  intros L lg v r d [_ GL] PV N Hd FR SR. pose proof eps_small as EP. pose proof ln10 as L10. pose proof (two_pos (-1020)) as P.
  destruct (GL r FR SR) as (y & Ey & Ny). unfold g_dB. rewrite Ey. rewrite ten. cbn [f_mul binary64 xmul].
  set (l := ln r / ln 10) in *.
  assert (I10 : 0 < / ln 10 <= / 2) by (split; [apply Rinv_0_lt_compat; lra|apply Rinv_le_contravar; lra]).
  (* the exact logarithms *)
  assert (X : Rabs (l - ln v / ln 10) <= d / 2).
  { destruct N as (k & [K1 K2] & ->). assert (0 < k) by (pose proof (exp_pos (- d)); lra). unfold l. rewrite ln_mult by assumption.
    replace ((ln v + ln k) / ln 10 - ln v / ln 10) with (ln k * / ln 10) by (field; lra). rewrite Rabs_mult. rewrite (Rabs_pos_eq (/ ln 10)) by lra.
    assert (Rabs (ln k) <= d); [|pose proof (Rabs_pos (ln k)); unfold Rdiv; apply Rmult_le_compat; lra].
    apply Rabs_le. split; [rewrite <- (ln_exp (- d)); apply Rcomplements.ln_le; [apply exp_pos|exact K1]|rewrite <- (ln_exp d); apply Rcomplements.ln_le; assumption]. }
  assert (Y : Rabs l <= 510).
  { unfold l, Rdiv. rewrite Rabs_mult, (Rabs_pos_eq (/ ln 10)) by lra. pose proof (ln_range r SR). pose proof (Rabs_pos (ln r)). replace 510 with (1020 * / 2) by field. apply Rmult_le_compat; lra. }
  (* np.log10 *)
  apply near_bound in Ny. pose proof (exp_lin eps ltac:(lra)) as E1.
  assert (Ny' : Rabs (y - l) <= 2 * eps * Rabs l) by (eapply Rle_trans; [exact Ny|apply Rmult_le_compat_r; [apply Rabs_pos|exact E1]]).
  assert (Ya : Rabs y <= Rabs l + 2 * eps * Rabs l) by (replace y with (l + (y - l)) by ring; eapply Rle_trans; [apply Rabs_triang|lra]).
  assert (LE : 0 <= eps * Rabs l <= / 1024 * Rabs l) by (pose proof (Rabs_pos l); split; [apply Rmult_le_pos; lra|apply Rmult_le_compat_r; lra]).
  (* the product *)
  exists (fl (10 * y)). assert (R10 : Rabs (10 * y) = 10 * Rabs y) by (rewrite Rabs_mult, (Rabs_pos_eq 10) by lra; reflexivity).
  split.
  { apply (ieee_fin _ 13); [lia|]. rewrite R10. change (two 13) with 8192. lra. }
  pose proof (fl_abs (10 * y)) as Z. rewrite R10 in Z.
  assert (TI : two (-1075) <= eps / 4) by (unfold eps; replace (two (-52) / 4) with (two (-54)) by (change (-52)%Z with (2 + -54)%Z; rewrite bpow_plus; change (two 2) with 4; field); apply bpow_le; lia).
  assert (LV : Rabs (level v) = 10 * Rabs (ln v / ln 10)) by (unfold level; rewrite Rabs_mult, (Rabs_pos_eq 10) by lra; reflexivity).
  assert (LL : Rabs l <= Rabs (ln v / ln 10) + d / 2).
  { replace l with (ln v / ln 10 + (l - ln v / ln 10)) by ring. eapply Rle_trans; [apply Rabs_triang|lra]. }
  rewrite LV. unfold level. set (q := ln v / ln 10) in *. set (al := Rabs l) in *. pose proof (Rabs_pos q) as Pq. set (aq := Rabs q) in *.
  assert (S1 : Rabs (fl (10 * y) - 10 * q) <= Rabs (fl (10 * y) - 10 * y) + 10 * Rabs (y - l) + 10 * Rabs (l - q)).
  { replace (fl (10 * y) - 10 * q) with ((fl (10 * y) - 10 * y) + (10 * (y - l) + 10 * (l - q))) by ring. eapply Rle_trans; [apply Rabs_triang|].
    pose proof (Rabs_triang (10 * (y - l)) (10 * (l - q))) as W. rewrite !Rabs_mult, !(Rabs_pos_eq 10) in W by lra. lra. }
  assert (EY : eps * Rabs y <= eps * (al + 2 * (eps * al))) by (apply Rmult_le_compat_l; lra).
  assert (EE : eps * (eps * al) <= / 1024 * (eps * al)) by (apply Rmult_le_compat_r; lra).
  assert (EL : eps * al <= eps * (aq + d / 2)) by (apply Rmult_le_compat_l; lra).
  assert (ED : 0 <= eps * d <= / 1024 * d) by (split; [apply Rmult_le_pos; lra|apply Rmult_le_compat_r; lra]).
  assert (EQ : 0 <= eps * aq) by (apply Rmult_le_pos; lra).
  replace ((1 + 3 * (10 * aq)) * eps) with (eps + 30 * (eps * aq)) by ring. lra.
Qed.
Print Assumptions C105_conversion.

(** the surface contribution in sigma0 units and decibels, the default of the module: the error is a multiple of eps, and a contribution of zero
    is reported as -inf *)
Theorem C105_surface : forall L lg x srf k,
  good_exp L -> good_cos L (p_t0 x) -> good_cos L (p_tex x) -> good_log10 lg ->
  in_range x -> 0 < cos (p_t0 x) -> 0 < cos (p_tex x) -> depth x <= 300 -> p_I0 x <> 0 ->
  0 <= k <= 1000 -> near (k * eps) (p_brdf x) srf -> sized (-60) 60 srf ->
  let A := binary64 L in
  let computed := g_dB A lg (g_sig0 A (Fin (p_I0 x)) (f_cos A (Fin (p_t0 x)))
      (g_surface A (Fin (p_I0 x)) (f_cos A (Fin (p_t0 x))) (f_cos A (Fin (p_tex x))) (Fin srf) (Fin (p_tau x)) (Fin (p_norm x)) (Fin (p_bsfr x)))) in
  let S := unit_factor true x * surface_value x in
  (0 < S -> exists z, computed = Fin z /\ Rabs (z - level S) <= (91 + 6 * k + 36 * depth x + 3 * Rabs (level S)) * eps) /\
  (S = 0 -> computed = NInf) /\ 0 <= S.
Proof.
  intros L lg x srf k GE G0 G1 GL IR C0 C1 DT PI0 Hk Nb Sb A computed S.
  destruct (surface_sigma0_near L x srf k GE G0 G1 IR C0 C1 DT PI0 Hk Nb Sb) as (r & Er & N & Sr & PS & B). fold A in Er. fold S in N, PS.
  unfold computed. rewrite Er. clear computed. split; [|split; [|exact PS]].
  - intros P. assert (R0 : r <> 0) by (intros W; pose proof (near_zero _ _ _ N W); lra). destruct Sr as [->|Sr]; [contradiction|].
    destruct (C105_conversion L lg S r _ GL P N ltac:(lra) (sigma0_format _ _ _ _ _ Er) Sr) as (z & Ez & H). exists z. split; [exact Ez|]. eapply Rle_trans; [exact H|]. apply Req_le. ring.
  - intros E. destruct N as (c & _ & ->). rewrite E, Rmult_0_l. unfold g_dB, A. destruct GL as [-> _]. rewrite ten. cbn. rewrite rsign_pos by lra. reflexivity.
Qed.
Print Assumptions C105_surface.

(** *** C106.  Rounding errors of the volume contribution in decibels.
    Intended: as for the surface contribution; a finite level is reported up to a multiple of eps.  The factor depends on the optical depth, and for
    very thin layers the reported level is -inf. *)
Theorem C106_volume_partial : forall L lg x v k,
  good_exp L -> good_cos L (p_t0 x) -> good_cos L (p_tex x) -> good_log10 lg ->
  in_range x -> 0 < cos (p_t0 x) -> 0 < cos (p_tex x) -> two (-43) <= depth x <= 300 -> p_I0 x <> 0 ->
  0 <= k <= 1000 -> near (k * eps) (p_vol x) v -> sized (-60) 60 v ->
  let A := binary64 L in
  let computed := g_dB A lg (g_sig0 A (Fin (p_I0 x)) (f_cos A (Fin (p_t0 x)))
      (g_volume A (Fin (p_I0 x)) (Fin (p_omega x)) (f_cos A (Fin (p_t0 x))) (f_cos A (Fin (p_tex x))) (Fin (p_tau x)) (Fin v) (Fin (p_bsfr x)))) in
  let S := unit_factor true x * volume_value x in
  (0 < S -> exists z, computed = Fin z /\ Rabs (z - level S) <= (247 + 6 * k + 24 / depth x + 3 * Rabs (level S)) * eps) /\
  (S = 0 -> computed = NInf) /\ 0 <= S.
Proof.
  intros L lg x v k GE G0 G1 GL IR C0 C1 DT PI0 Hk Nv Sv A computed S. pose proof eps_small as EP. pose proof PI_RGT_0 as PP.
  destruct (volume_thick L x v k GE G0 G1 IR C0 C1 DT Hk Nv Sv) as (s & Es & N & Ss & PV & B). fold A in Es. unfold computed. rewrite Es. clear Es computed.
  assert (Si : sized (-60) 60 (p_I0 x)) by apply IR.
  destruct (sigma0_near L x s _ _ _ _ G0 Si PI0 N Ss ltac:(lia) ltac:(lia)) as (r & Er & M & Sr). fold A in Er. fold S in M. rewrite Er.
  assert (PS : 0 <= S).
  { pose proof (sized_pos _ _ _ Si). apply Rmult_le_pos; [|exact PV]. unfold unit_factor. apply Rmult_le_pos; [apply Rmult_le_pos; lra|left; apply Rinv_0_lt_compat; lra]. }
  replace ((35 + k + 4 / depth x) * eps + 6 * eps) with ((41 + k + 4 / depth x) * eps) in M by ring.
  split; [|split; [|exact PS]].
  - intros P. assert (R0 : r <> 0) by (intros W; pose proof (near_zero _ _ _ M W); lra). destruct Sr as [->|Sr]; [contradiction|].
    destruct (C105_conversion L lg S r _ GL P M ltac:(lra) (sigma0_format _ _ _ _ _ Er) Sr) as (z & Ez & H). exists z. split; [exact Ez|]. eapply Rle_trans; [exact H|]. apply Req_le. unfold Rdiv. ring.
  - intros E. destruct M as (c & _ & ->). rewrite E, Rmult_0_l. unfold g_dB, A. destruct GL as [-> _]. rewrite ten. cbn. rewrite rsign_pos by lra. reflexivity.
Qed.
Print Assumptions C106_volume_partial.
Theorem C106_volume_refuted : forall L lg x v dv,
  rounded_exp L -> good_cos L (p_t0 x) -> good_cos L (p_tex x) -> good_log10 lg -> in_range x -> 0 < cos (p_t0 x) -> 0 < cos (p_tex x) ->
  near dv (p_vol x) v -> sized (-60) 60 v -> 0 < depth x <= two (-57) -> 0 < deep_value x -> p_I0 x <> 0 ->
  let A := binary64 L in
  let S := unit_factor true x * volume_value x in
  0 < S /\
  g_dB A lg (g_sig0 A (Fin (p_I0 x)) (f_cos A (Fin (p_t0 x)))
    (g_volume A (Fin (p_I0 x)) (Fin (p_omega x)) (f_cos A (Fin (p_t0 x))) (f_cos A (Fin (p_tex x))) (Fin (p_tau x)) (Fin v) (Fin (p_bsfr x)))) = NInf /\
  xmul (Fin 10) (xlog10 (Fin S)) = Fin (level S).
Proof.
  intros L lg x v dv RE G0 G1 GL IR C0 C1 Nv Sv DT PD PI0 A S. pose proof PI_RGT_0 as PP. pose proof ln10 as L10.
  destruct (C98_volume_refuted L x v dv RE G0 G1 IR C0 C1 Nv Sv DT PD) as (E & VV & _). fold A in E. rewrite E.
  assert (Si : sized (-60) 60 (p_I0 x)) by apply IR.
  destruct (sigma0_near L x 0 0 0 (-60) 60 G0 Si PI0 (near_refl 0) ltac:(left; reflexivity) ltac:(lia) ltac:(lia)) as (r & Er & M & _). fold A in Er. rewrite Er.
  assert (P : 0 < S).
  { pose proof (sized_pos _ _ _ Si). apply Rmult_lt_0_compat; [|exact VV]. unfold unit_factor. apply Rmult_lt_0_compat; [apply Rmult_lt_0_compat; lra|apply Rinv_0_lt_compat; lra]. }
  split; [exact P|]. split; [|now rewrite xlog10_Fin by exact P].
  destruct M as (c & _ & ->). rewrite Rmult_0_r, Rmult_0_l. unfold g_dB, A. destruct GL as [-> _]. rewrite ten. cbn. rewrite rsign_pos by lra. reflexivity.
Qed.
Print Assumptions C106_volume_refuted.

(** Instances: the correctly rounded np.log10 is one; the layers of optical depth 4 and 2^-58 of Properties35.v. *)
Definition lg_ex (a : xr) : xr := ieee (xlog10 a).
Lemma above_one x : generic_format radix2 b64 x -> 1 < x -> 1 + two (-52) <= x.
Proof.
  intros F H. assert (V : Valid_exp b64) by (apply FLT_exp_valid, prec53).
  assert (F1 : generic_format radix2 b64 (two 0)) by (apply generic_format_FLT_bpow; [exact prec53|lia]).
  pose proof (succ_le_lt radix2 b64 (two 0) x F1 F H) as K. rewrite succ_eq_pos in K by (left; apply two_pos). rewrite ulp_bpow in K. change (b64 (0 + 1)%Z) with (-52)%Z in K. exact K.
Qed.
Lemma near_opp d v z : near d v z -> near d (- v) (- z).
Proof. intros (k & K & ->). exists k. split; [exact K|ring]. Qed.
Lemma lg_ex_good : good_log10 lg_ex.
Proof.
  split; [unfold lg_ex; now rewrite xlog10_0|]. intros v F B. pose proof (two_pos (-1020)) as P. pose proof ln10 as L10. unfold lg_ex. rewrite xlog10_Fin by lra.
  assert (I10 : 0 < / ln 10 <= / 2) by (split; [apply Rinv_0_lt_compat; lra|apply Rinv_le_contravar; lra]).
  assert (J10 : / 16 <= / ln 10).
  { apply Rinv_le_contravar; [lra|]. rewrite <- (ln_exp 16). apply Rcomplements.ln_le; [lra|]. pose proof (exp_ineq1_le 16). lra. }
  assert (Y : Rabs (ln v / ln 10) <= 510).
  { unfold Rdiv. rewrite Rabs_mult, (Rabs_pos_eq (/ ln 10)) by lra. pose proof (ln_range v B). pose proof (Rabs_pos (ln v)). replace 510 with (1020 * / 2) by field. apply Rmult_le_compat; lra. }
  exists (fl (ln v / ln 10)). split; [apply (ieee_fin _ 9); [lia|]; change (two 9) with 512; lra|].
  assert (T57 : two (-57) = two (-53) * / 16) by (change (-57)%Z with (-53 + -4)%Z; rewrite bpow_plus; reflexivity). pose proof (two_pos (-53)) as P53.
  assert (Q : forall w, 1 < w -> two (-53) <= ln w -> Rabs (ln w / ln 10) <= 510 -> near eps (ln w / ln 10) (fl (ln w / ln 10))).
  { intros w W1 W2 W3. assert (0 <= ln w / ln 10) by (apply Rmult_le_pos; lra). rewrite Rabs_pos_eq in W3 by assumption.
    apply (fl_near (-57) 9); [lia|]. right. change (two 9) with 512. split; [|lra]. rewrite T57. apply Rmult_le_compat; lra. }
  destruct (Rtotal_order v 1) as [LT|[->|GT]].
  - pose proof (below_one v F LT) as K. assert (W : ln (/ v) = - ln v) by (apply ln_Rinv; lra).
    assert (L1 : two (-53) <= ln (/ v)).
    { rewrite W. assert (ln v <= v - 1); [|lra]. rewrite <- (ln_exp (v - 1)). apply Rcomplements.ln_le; [lra|]. pose proof (exp_ineq1_le (v - 1)). lra. }
    assert (V1 : 1 < / v) by (rewrite <- Rinv_1; apply Rinv_lt_contravar; lra).
    assert (E : ln v / ln 10 = - (ln (/ v) / ln 10)) by (rewrite W; field; lra). rewrite E in *. rewrite Rabs_Ropp in Y. rewrite fl_opp. apply near_opp, Q; assumption.
  - rewrite ln_1. replace (0 / ln 10) with 0 by (field; lra). rewrite fl_0. eapply near_weak; [apply near_refl|]. pose proof eps_small. lra.
  - apply Q; [exact GT| |exact Y]. pose proof (above_one v F GT) as K.
    assert (L1 : 1 - / v <= ln v).
    { assert (W : ln (/ v) = - ln v) by (apply ln_Rinv; lra). assert (0 < / v) by (apply Rinv_0_lt_compat; lra). assert (ln (/ v) <= / v - 1); [|lra].
      rewrite <- (ln_exp (/ v - 1)). apply Rcomplements.ln_le; [assumption|]. pose proof (exp_ineq1_le (/ v - 1)). lra. }
    assert (T52 : two (-52) = 2 * two (-53)) by (change (-52)%Z with (1 + -53)%Z; rewrite bpow_plus; reflexivity). pose proof eps_small as EP. unfold eps in EP.
    assert (/ v <= / (1 + two (-52))) by (apply Rinv_le_contravar; lra). assert (/ (1 + two (-52)) <= 1 - two (-53)); [|lra].
    apply Rmult_le_reg_l with (1 + two (-52)); [lra|]. rewrite Rinv_r by lra. nra.
Qed.
Example C105_nonvacuous : let x := layer 1 in let A := binary64 lib_ex in let S := unit_factor true x * surface_value x in
  0 < S /\
  exists z, g_dB A lg_ex (g_sig0 A (Fin (p_I0 x)) (f_cos A (Fin (p_t0 x)))
      (g_surface A (Fin (p_I0 x)) (f_cos A (Fin (p_t0 x))) (f_cos A (Fin (p_tex x))) (Fin (1 / 4)) (Fin (p_tau x)) (Fin (p_norm x)) (Fin (p_bsfr x)))) = Fin z /\
    Rabs (z - level S) <= (91 + 6 * 0 + 36 * 4 + 3 * Rabs (level S)) * eps.
Proof.
  intros x A S. destruct (layer_ok 0 ltac:(lia)) as (RE & G & IR & C & N & Sb & _ & _ & D & _). rewrite two_0 in *. change (two (0 + 2)) with 4 in D. fold x in IR, D.
  assert (I : p_I0 x <> 0) by (cbn; lra).
  destruct (C105_surface lib_ex lg_ex x (1 / 4) 0 (rounded_good _ RE) G G lg_ex_good IR C C ltac:(lra) I ltac:(lra) N Sb) as (K & _ & _). rewrite D in K.
  assert (P : 0 < S); [|split; [exact P|exact (K P)]].
  assert (Q : 0 < attenuation x) by apply exp_pos. pose proof PI_RGT_0 as PP.
  unfold S, unit_factor, surface_value. cbn [p_I0 p_t0 p_norm p_bsfr p_brdf x layer]. fold x.
  apply Rmult_lt_0_compat; [apply Rmult_lt_0_compat; [apply Rmult_lt_0_compat; lra|lra]|].
  apply Rmult_lt_0_compat; [apply Rmult_lt_0_compat; [apply Rmult_lt_0_compat; [apply Rmult_lt_0_compat; lra|lra]|lra]|lra].
Qed.
Example C106_nonvacuous :
  (let x := layer 1 in let A := binary64 lib_ex in let S := unit_factor true x * volume_value x in
   0 < S /\
   exists z, g_dB A lg_ex (g_sig0 A (Fin (p_I0 x)) (f_cos A (Fin (p_t0 x)))
      (g_volume A (Fin (p_I0 x)) (Fin (p_omega x)) (f_cos A (Fin (p_t0 x))) (f_cos A (Fin (p_tex x))) (Fin (p_tau x)) (Fin (1 / 8)) (Fin (p_bsfr x)))) = Fin z /\
     Rabs (z - level S) <= (247 + 6 * 0 + 24 / 4 + 3 * Rabs (level S)) * eps) /\
  (let x := layer (two (-60)) in let A := binary64 lib_ex in
   0 < unit_factor true x * volume_value x /\
   g_dB A lg_ex (g_sig0 A (Fin (p_I0 x)) (f_cos A (Fin (p_t0 x)))
     (g_volume A (Fin (p_I0 x)) (Fin (p_omega x)) (f_cos A (Fin (p_t0 x))) (f_cos A (Fin (p_tex x))) (Fin (p_tau x)) (Fin (1 / 8)) (Fin (p_bsfr x)))) = NInf).
Proof.
  split; intros x A.
  - intros S. destruct (layer_ok 0 ltac:(lia)) as (RE & G & IR & C & _ & _ & N & Sb & D & PD). rewrite two_0 in *. change (two (0 + 2)) with 4 in D. fold x in IR, D, PD.
    assert (I : p_I0 x <> 0) by (cbn; lra). assert (B : two (-43) <= two 0) by (apply bpow_le; lia). rewrite two_0 in B.
    destruct (C106_volume_partial lib_ex lg_ex x (1 / 8) 0 (rounded_good _ RE) G G lg_ex_good IR C C ltac:(lra) I ltac:(lra) N Sb) as (K & _ & _). rewrite D in K.
    assert (P : 0 < S); [|split; [exact P|exact (K P)]]. pose proof PI_RGT_0 as PP.
    unfold S. replace (volume_value x) with (deep_value x * (1 - attenuation x)) by (unfold deep_value, volume_value; ring).
    apply Rmult_lt_0_compat; [unfold unit_factor; cbn [p_I0 p_t0 x layer]; apply Rmult_lt_0_compat; [apply Rmult_lt_0_compat; lra|lra]|].
    apply Rmult_lt_0_compat; [exact PD|]. assert (attenuation x < 1); [|lra]. unfold attenuation. rewrite <- exp_0. apply exp_increasing. unfold depth in D. lra.
  - destruct (layer_ok (-60) ltac:(lia)) as (RE & G & IR & C & _ & _ & N & Sb & D & P). fold x in IR, D, P.
    assert (I : p_I0 x <> 0) by (cbn; lra).
    destruct (C106_volume_refuted lib_ex lg_ex x (1 / 8) _ RE G G lg_ex_good IR C C N Sb ltac:(rewrite D; split; [apply two_pos|apply bpow_le; lia]) P I) as (V & E & _). split; [exact V|exact E].
Qed.
