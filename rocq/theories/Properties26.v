(** Sign, size and scaling of the interaction contribution: C70, C71, C72. *)
From Coquelicot Require Import Coquelicot.
From Coq Require Import Reals Lia Lra List.
From Verif Require Import SpecScat SpecExp SpecInt Flip Trunc.
From Verif Require Import LegFacts.
From Verif Require Export Validity Properties6 Wit26.
Open Scope string_scope.
Open Scope list_scope.
Open Scope R_scope.

(** ** The integrals *)
Lemma weight_thin mu0 tau mu : 0 < mu0 -> 0 < tau -> 0 < mu -> weight mu0 tau mu <= tau / mu0.
Proof.
  intros H0 Ht Hm. pose proof (Rdiv_lt_0_compat _ _ Ht H0) as Q. unfold weight.
  assert (L : forall a b, 0 <= a -> a < b -> exp (- a) - exp (- b) <= b - a).
  { intros a b Ha Hab. pose proof (exp_ineq1_le (a - b)) as X. assert (E : exp (- b) = exp (- a) * exp (a - b)) by (rewrite <- exp_plus; f_equal; ring).
    assert (exp (- a) <= 1) by (destruct (Req_dec a 0) as [->|]; [rewrite Ropp_0, exp_0; lra|]; left; rewrite <- exp_0; apply exp_increasing; lra).
    pose proof (exp_pos (- a)). rewrite E. nra. }
  assert (A : 0 < tau / mu) by now apply Rdiv_lt_0_compat.
  replace (- tau / mu0) with (- (tau / mu0)) by (field; lra). replace (- tau / mu) with (- (tau / mu)) by (field; lra).
  destruct (Rtotal_order mu0 mu) as [H|[H|H]].
  - assert (tau / mu < tau / mu0) by (apply Rmult_lt_compat_l; [assumption|]; apply Rinv_lt_contravar; [nra|assumption]).
    specialize (L (tau / mu) (tau / mu0) ltac:(lra) ltac:(lra)).
    replace (mu / (mu0 - mu) * (exp (- (tau / mu0)) - exp (- (tau / mu)))) with (mu / (mu - mu0) * (exp (- (tau / mu)) - exp (- (tau / mu0)))) by (field; lra).
    replace (tau / mu0) with (mu / (mu - mu0) * (tau / mu0 - tau / mu)) at 2 by (field; repeat split; lra).
    apply Rmult_le_compat_l; [left; apply Rdiv_lt_0_compat; lra|exact L].
  - subst. rewrite (Rminus_eq_0 (exp _)), Rmult_0_r. lra.
  - assert (tau / mu0 < tau / mu) by (apply Rmult_lt_compat_l; [assumption|]; apply Rinv_lt_contravar; [nra|assumption]).
    specialize (L (tau / mu0) (tau / mu) ltac:(lra) ltac:(lra)).
    replace (tau / mu0) with (mu / (mu0 - mu) * (tau / mu - tau / mu0)) at 2 by (field; repeat split; lra).
    apply Rmult_le_compat_l; [left; apply Rdiv_lt_0_compat; lra|exact L].
Qed.
Lemma F_nonneg mu0 tau p b F : 0 < mu0 -> 0 < tau -> (forall th ph, 0 <= p th ph) -> (forall th ph, 0 <= b th ph) -> is_F mu0 tau p b F -> 0 <= F.
Proof.
  intros H0 Ht Hp Hb [E I]. pose proof PI_RGT_0 as HP. rewrite <- (is_RInt_unique (V := R_CompleteNormedModule) _ _ _ _ I).
  apply RInt_ge_0; [lra|eexists; exact I|]. intros mu Hm. apply Rmult_le_pos; [apply weight_nonneg; lra|].
  apply RInt_ge_0; [lra|apply E|]. intros ph _. now apply Rmult_le_pos.
Qed.
Lemma F_size mu0 tau p b F Mp Mb : 0 < mu0 -> 0 < tau -> (forall th ph, Rabs (p th ph) <= Mp) -> (forall th ph, Rabs (b th ph) <= Mb) ->
  is_F mu0 tau p b F -> Rabs F <= Rmin (tau / mu0) (/ tau) * (2 * PI * Mp * Mb).
Proof.
  intros H0 Ht Hp Hb [E I]. pose proof PI_RGT_0 as HP.
  set (W := Rmin (tau / mu0) (/ tau)).
  assert (PW : 0 <= W) by (apply Rmin_glb; [left; now apply Rdiv_lt_0_compat|left; now apply Rinv_0_lt_compat]).
  assert (Pp : 0 <= Mp) by (eapply Rle_trans; [apply Rabs_pos|apply (Hp 0 0)]). assert (Pb : 0 <= Mb) by (eapply Rle_trans; [apply Rabs_pos|apply (Hb 0 0)]).
  assert (B : norm F <= (1 - 0) * (W * (2 * PI * Mp * Mb))).
  2: { change (norm F) with (Rabs F) in B. rewrite Rminus_0_r, Rmult_1_l in B. exact B. }
  apply (norm_RInt_le_const (V := R_NormedModule) (fun mu => weight mu0 tau mu * RInt (fun ph => p (acos mu) ph * b (acos mu) ph) 0 (2 * PI))); [lra| |exact I].
  intros mu Hm. change (Rabs (weight mu0 tau mu * RInt (fun ph => p (acos mu) ph * b (acos mu) ph) 0 (2 * PI)) <= W * (2 * PI * Mp * Mb)).
  rewrite Rabs_mult. apply Rmult_le_compat; [apply Rabs_pos|apply Rabs_pos| |].
  - apply Rmin_glb; [|now apply weight_abs]. destruct (Req_dec mu 0) as [->|N].
    + unfold weight, Rdiv. rewrite !Rmult_0_l, Rabs_R0. left. now apply Rdiv_lt_0_compat.
    + rewrite Rabs_pos_eq by (apply weight_nonneg; lra). apply weight_thin; lra.
  - eapply Rle_trans; [apply (abs_RInt_le_const _ 0 (2 * PI) (Mp * Mb)); [lra|apply E|]|].
    + intros ph _. rewrite Rabs_mult. apply Rmult_le_compat; auto using Rabs_pos.
    + right. ring.
Qed.

(** ** Both modes at once *)
Section Both.
  Context (w : world) (p : op) (o : nat) (i : list nat) (y : xr) (iq sg db : bool) (x : point) (f : string -> R) (V SRF : scat).
  Let w' := fst (step w p).
  Hypothesis (T : tidy w p) (Y : returns_interaction w p o i y) (Fl : obs_flags w' o iq sg db) (Sa : sample w' o i x f V SRF) (Hi : sg = true -> p_I0 x <> 0).
  Lemma any_mode : exists F1 F2 a1 a2 a3 a4 b1 b2 b3 b4, y = in_units db (interaction_value x F1 F2 * unit_factor sg x) /\
    is_F (cos (p_t0 x)) (p_tau x) (fun th ph => expansion_value f V a1 th a2 ph) (fun th ph => expansion_value f SRF th a3 ph a4) F1 /\
    is_F (cos (p_tex x)) (p_tau x) (fun th ph => expansion_value f V b1 th b2 ph) (fun th ph => expansion_value f SRF th b3 ph b4) F2.
  Proof.
    pose proof Fl as (r & Hr & _). destruct (r_mono r) eqn:M.
    - assert (Mo : obs_mode w' o true) by (exists r; auto).
      destruct (C49_monostatic_interaction_exact w p o i y iq sg db x f V SRF T Y Fl Mo Sa Hi) as (F1 & F2 & E & I1 & I2).
      unfold is_Fint in *. do 10 eexists. split; [exact E|]. split; [exact I1|exact I2].
    - assert (Mo : obs_mode w' o false) by (exists r; auto).
      destruct (C50_bistatic_interaction_value w p o i y iq sg db x f V SRF T Y Fl Mo Sa Hi) as (F1 & F2 & ti & pi & tt & po & E & I1 & I2 & _).
      unfold is_Fint in *. do 10 eexists. split; [exact E|]. split; [exact I1|exact I2].
  Qed.
End Both.

(** *** C70.  The interaction contribution is not negative where the expansions of V and SRF are not. *)
Theorem C70_interaction_not_negative : forall w p o i y iq sg x f V SRF,
  let w' := fst (step w p) in
  tidy w p -> returns_interaction w p o i y -> obs_flags w' o iq sg false -> sample w' o i x f V SRF ->
  0 < p_I0 x -> 0 <= p_omega x -> 0 <= p_norm x -> 0 <= p_bsfr x <= 1 ->
  (forall t0 tex p0 pex, 0 <= expansion_value f V t0 tex p0 pex) -> (forall t0 tex p0 pex, 0 <= expansion_value f SRF t0 tex p0 pex) ->
  exists v, y = Fin v /\ 0 <= v.
Proof.
  intros w p o i y iq sg x f V SRF w' T Y Fl Sa HI HO HN HB PV PS.
  destruct (any_mode w p o i y iq sg false x f V SRF T Y Fl Sa ltac:(intros _; lra)) as (F1 & F2 & a1 & a2 & a3 & a4 & b1 & b2 & b3 & b4 & E & I1 & I2).
  destruct Sa as (_ & _ & _ & _ & _ & _ & _ & _ & C0 & C1 & Tp). pose proof PI_RGT_0 as HP.
  apply F_nonneg in I1; auto; [|lra]. apply F_nonneg in I2; auto; [|lra].
  exists (interaction_value x F1 F2 * unit_factor sg x). split; [exact E|].
  apply Rmult_le_pos.
  - unfold interaction_value. pose proof (exp_pos (- p_tau x / cos (p_tex x))). pose proof (exp_pos (- p_tau x / cos (p_t0 x))).
    apply Rmult_le_pos; [apply Rmult_le_pos; lra|]. apply Rmult_le_pos; [apply Rmult_le_pos; [apply Rmult_le_pos|]; lra|].
    apply Rplus_le_le_0_compat; apply Rmult_le_pos; lra.
  - unfold unit_factor. destruct sg; [|lra]. left. apply Rdiv_lt_0_compat; [|lra]. apply Rmult_lt_0_compat; lra.
Qed.
Print Assumptions C70_interaction_not_negative.
(** this is so for Isotropic and Rayleigh *)
Lemma exact_expansions_positive f s : match s with VIso _ | VRay _ | SIso _ => True | _ => False end ->
  forall t0 tex p0 pex, 0 <= expansion_value f s t0 tex p0 pex.
Proof.
  intros H t0 tex p0 pex. pose proof PI_RGT_0 as HP. pose proof (Rinv_0_lt_compat _ HP) as HI.
  destruct s as [a|a| | |a| | | |]; try (now destruct H); unfold expansion_value; cbn [scat_a].
  - change (nc_of (VIso a)) with 1%nat. unfold leg_series. rewrite legP_0. cbn [coef_value]. unfold c_isotropic, delta. cbn [Nat.eqb].
    rewrite Rplus_0_l, !Rmult_1_r. left. apply Rdiv_lt_0_compat; lra.
  - change (nc_of (VRay a)) with 3%nat. unfold leg_series. rewrite legP_SS, legP_1, legP_0. cbn [coef_value]. unfold c_rayleigh, delta. cbn [Nat.eqb].
    set (x := cos_angle _ _ _ _ _). apply Rle_trans with (3 / (16 * PI) * (1 + x * x)); [|right; simpl; field; lra].
    apply Rmult_le_pos; [left; apply Rdiv_lt_0_compat; lra|nra].
  - change (nc_of (SIso a)) with 1%nat. unfold leg_series. rewrite legP_0. cbn [coef_value]. unfold c_lambert, delta. cbn [Nat.eqb].
    rewrite Rplus_0_l, !Rmult_1_r. left. apply Rdiv_lt_0_compat; lra.
Qed.
Print Assumptions exact_expansions_positive.
(** ... and for the two-term HG expansions of the state of C30_nonvacuous *)
Example C70_nonvacuous m : exists w p o i y iq sg x f V SRF, let w' := fst (step w p) in
  tidy w p /\ returns_interaction w p o i y /\ obs_flags w' o iq sg false /\ obs_mode w' o m /\ sample w' o i x f V SRF /\
  0 < p_I0 x /\ 0 <= p_omega x /\ 0 <= p_norm x /\ 0 <= p_bsfr x <= 1 /\
  (forall t0 tex p0 pex, 0 <= expansion_value f V t0 tex p0 pex <= 1) /\ (forall t0 tex p0 pex, 0 <= expansion_value f SRF t0 tex p0 pex <= 1).
Proof.
  destruct (wC_calc (if m then Mono else Bi) 1 1 0 (0 + PI) cos1_lt cos1_lt) as (y1 & y2 & y3 & H).
  exists (wC (if m then Mono else Bi) 1 1 0 (0 + PI)), (OCalc 0 nil), 0%nat, (1%nat :: nil), y3, true, false,
    (xC (if m then Mono else Bi) 1 1 0 (0 + PI)), (fC (if m then Mono else Bi) 1 1 0 (0 + PI)), VC, SC.
  pose proof (calc_at_returns _ _ _ _ _ _ _ _ _ _ _ _ _ _ H) as R. destruct H as (a & T & E & Fl & M & Vi & S & _ & _ & I0 & _).
  intros w'. split; [exact T|]. split; [exact R|]. split; [exact Fl|]. split; [destruct m; exact M|]. split; [exact S|].
  cbn [xC p_I0 p_omega p_norm p_bsfr]. do 4 (split; [lra|]).
  assert (Q1 : Rabs (Q2R (-1)) <= 1) by (apply Rabs_le; unfold Q2R; simpl; lra). assert (Q2 : Rabs (Q2R 1) <= 1) by (apply Rabs_le; unfold Q2R; simpl; lra).
  pose proof PI_RGT_0 as HP. assert (P3 : 3 < PI) by (pose proof PI2_3_2; lra).
  set (f := fC _ _ _ _ _). assert (Et : f "t" = 1 / 4) by (unfold f, fC; reflexivity). clearbody f.
  split; intros t0 tex p0 pex; unfold expansion_value; cbn [scat_a].
  - change (nc_of VC) with 2%nat. unfold leg_series. rewrite legP_1, legP_0. cbn [coef_value evalR]. rewrite Et.
    set (x := cos_angle _ _ _ _ _). assert (B : -1 <= x <= 1) by (apply unit_angle; split; [|split]; first [exact Q1|exact Q2]). clearbody x.
    unfold c_hg. simpl INR.
    replace (0 + 1 / (4 * PI) * (2 * 0 + 1) * (1 / 4) ^ 0 * 1 + 1 / (4 * PI) * (2 * 1 + 1) * (1 / 4) ^ 1 * x) with ((1 + 3 / 4 * x) / (4 * PI)) by (field; lra).
    split; [apply Rmult_le_pos; [lra|left; apply Rinv_0_lt_compat; lra]|]. apply Rmult_le_reg_r with (4 * PI); [lra|]. unfold Rdiv. rewrite Rmult_assoc, Rinv_l by lra. lra.
  - change (nc_of SC) with 2%nat. unfold leg_series. rewrite legP_1, legP_0. cbn [coef_value evalR]. rewrite Et.
    set (x := cos_angle _ _ _ _ _). assert (B : -1 <= x <= 1) by (apply unit_angle; split; [|split]; first [exact Q1|exact Q2]). clearbody x.
    unfold c_bhg. simpl INR.
    replace (0 + 1 / PI * (2 * 0 + 1) * (1 / 4) ^ 0 * 1 + 1 / PI * (2 * 1 + 1) * (1 / 4) ^ 1 * x) with ((1 + 3 / 4 * x) / PI) by (field; lra).
    split; [apply Rmult_le_pos; [lra|left; apply Rinv_0_lt_compat; lra]|]. apply Rmult_le_reg_r with PI; [lra|]. unfold Rdiv. rewrite Rmult_assoc, Rinv_l by lra. lra.
Qed.

(** *** C71.  Size of the interaction contribution: it vanishes with the optical depth and for deep layers. *)
Theorem C71_interaction_size : forall w p o i y iq sg x f V SRF Mv Ms,
  let w' := fst (step w p) in
  tidy w p -> returns_interaction w p o i y -> obs_flags w' o iq sg false -> sample w' o i x f V SRF -> (sg = true -> p_I0 x <> 0) ->
  (forall t0 tex p0 pex, Rabs (expansion_value f V t0 tex p0 pex) <= Mv) -> (forall t0 tex p0 pex, Rabs (expansion_value f SRF t0 tex p0 pex) <= Ms) ->
  exists v, y = Fin v /\
    Rabs v <= Rabs (p_norm x * (1 - p_bsfr x) * p_I0 x * cos (p_t0 x) * p_omega x * unit_factor sg x) * (2 * PI * Mv * Ms) *
      (exp (- p_tau x / cos (p_tex x)) * Rmin (p_tau x / cos (p_t0 x)) (/ p_tau x) + exp (- p_tau x / cos (p_t0 x)) * Rmin (p_tau x / cos (p_tex x)) (/ p_tau x)).
Proof.
  intros w p o i y iq sg x f V SRF Mv Ms w' T Y Fl Sa HI BV BS.
  destruct (any_mode w p o i y iq sg false x f V SRF T Y Fl Sa HI) as (F1 & F2 & a1 & a2 & a3 & a4 & b1 & b2 & b3 & b4 & E & I1 & I2).
  destruct Sa as (_ & _ & _ & _ & _ & _ & _ & _ & C0 & C1 & Tp). pose proof PI_RGT_0 as HP.
  apply (F_size _ _ _ _ _ Mv Ms) in I1; auto; [|lra]. apply (F_size _ _ _ _ _ Mv Ms) in I2; auto; [|lra].
  exists (interaction_value x F1 F2 * unit_factor sg x). split; [exact E|]. unfold interaction_value.
  set (e1 := exp (- p_tau x / cos (p_tex x))). set (e2 := exp (- p_tau x / cos (p_t0 x))). assert (P1 : 0 < e1) by apply exp_pos. assert (P2 : 0 < e2) by apply exp_pos.
  set (K := p_norm x * (1 - p_bsfr x) * p_I0 x * cos (p_t0 x) * p_omega x * unit_factor sg x).
  replace (p_norm x * (1 - p_bsfr x) * (p_I0 x * cos (p_t0 x) * p_omega x * (e1 * F1 + e2 * F2)) * unit_factor sg x) with (K * (e1 * F1 + e2 * F2)) by (unfold K; ring).
  rewrite Rabs_mult, Rmult_assoc. apply Rmult_le_compat_l; [apply Rabs_pos|].
  eapply Rle_trans; [apply Rabs_triang|]. rewrite !Rabs_mult, (Rabs_pos_eq e1), (Rabs_pos_eq e2) by lra.
  set (m1 := Rmin (p_tau x / cos (p_t0 x)) (/ p_tau x)) in *. set (m2 := Rmin (p_tau x / cos (p_tex x)) (/ p_tau x)) in *.
  set (M := 2 * PI * Mv * Ms) in *. replace (M * (e1 * m1 + e2 * m2)) with (e1 * (m1 * M) + e2 * (m2 * M)) by ring.
  apply Rplus_le_compat; apply Rmult_le_compat_l; lra.
Qed.
Print Assumptions C71_interaction_size.
Example C71_nonvacuous m : exists w p o i y iq sg x f V SRF, let w' := fst (step w p) in
  tidy w p /\ returns_interaction w p o i y /\ obs_flags w' o iq sg false /\ obs_mode w' o m /\ sample w' o i x f V SRF /\ (sg = true -> p_I0 x <> 0) /\
  (forall t0 tex p0 pex, Rabs (expansion_value f V t0 tex p0 pex) <= 1) /\ (forall t0 tex p0 pex, Rabs (expansion_value f SRF t0 tex p0 pex) <= 1).
Proof.
  destruct (C70_nonvacuous m) as (w & p & o & i & y & iq & sg & x & f & V & SRF & T & Y & Fl & M & S & I0 & _ & _ & _ & BV & BS).
  exists w, p, o, i, y, iq, sg, x, f, V, SRF. intros w'. do 5 (split; [assumption|]). split; [intros _ Z; rewrite Z in I0; lra|].
  split; intros t0 tex p0 pex; rewrite Rabs_pos_eq; apply BV || apply BS.
Qed.

(** *** C72.  Scaling NormBRDF and omega. *)
Theorem C72_scaling : forall w1 o1 kw1 i1 x1 f1 y1 y2 y3 w2 o2 kw2 i2 x2 f2 z1 z2 z3 m sg V SRF a b,
  calc_at w1 o1 kw1 i1 m sg false x1 f1 V SRF y1 y2 y3 ->
  calc_at w2 o2 kw2 i2 m sg false x2 f2 V SRF z1 z2 z3 ->
  (forall s, In s ("theta_0" :: "theta_ex" :: "phi_0" :: "phi_ex" :: nil) -> f1 s = f2 s) -> same_params f1 f2 V SRF ->
  m = true \/ (forall c, ~ obs_fixed (fst (step w1 (OCalc o1 kw1))) o1 c) /\ (forall c, ~ obs_fixed (fst (step w2 (OCalc o2 kw2))) o2 c) ->
  p_I0 x1 = p_I0 x2 -> p_t0 x1 = p_t0 x2 -> p_tex x1 = p_tex x2 -> p_tau x1 = p_tau x2 -> p_bsfr x1 = p_bsfr x2 ->
  p_norm x2 = a * p_norm x1 -> p_omega x2 = b * p_omega x1 ->
  exists u1 u2 u3, y1 = Fin u1 /\ y2 = Fin u2 /\ y3 = Fin u3 /\ z1 = Fin (a * u1) /\ z2 = Fin (b * u2) /\ z3 = Fin (a * b * u3).
Proof.
  intros w1 o1 kw1 i1 x1 f1 y1 y2 y3 w2 o2 kw2 i2 x2 f2 z1 z2 z3 m sg V SRF a b H1 H2 An SP Md S1 S2 S3 S4 S5 Ea Eb.
  destruct (calc_at_direct _ _ _ _ _ _ _ _ _ _ _ _ _ _ H1) as [D1 D2]. destruct (calc_at_direct _ _ _ _ _ _ _ _ _ _ _ _ _ _ H2) as [E1 E2].
  destruct (calc_at_phase _ _ _ _ _ _ _ _ _ _ _ _ _ _ H1) as (P1 & P2 & P3 & P4). destruct (calc_at_phase _ _ _ _ _ _ _ _ _ _ _ _ _ _ H2) as (Q1 & Q2 & Q3 & Q4).
  destruct (calc_at_basic _ _ _ _ _ _ _ _ _ _ _ _ _ _ H1) as [BV BS].
  assert (N : forall s, ang_of f1 s = cos_angle (ev_a f1 s) (f2 "theta_0") (f2 "theta_ex") (f2 "phi_0") (f2 "phi_ex")).
  { intros c. unfold ang_of. rewrite !An by (simpl; auto). reflexivity. }
  assert (Vq : p_vol x1 = p_vol x2) by (rewrite P1, Q1; apply phase_same; [intros y Hy; apply SP; auto|assumption|auto]).
  assert (Sq : p_brdf x1 = p_brdf x2) by (rewrite P2, Q2; apply phase_same; [intros y Hy; apply SP; auto|assumption|auto]).
  assert (EV : forall t u c d, expansion_value f2 V t u c d = expansion_value f1 V t u c d).
  { intros. apply expansion_value_ext; [assumption|]. intros s Hs. symmetry. apply SP. auto. }
  assert (ES : forall t u c d, expansion_value f2 SRF t u c d = expansion_value f1 SRF t u c d).
  { intros. apply expansion_value_ext; [assumption|]. intros s Hs. symmetry. apply SP. auto. }
  assert (I : exists F1 F2, y3 = in_units false (interaction_value x1 F1 F2 * unit_factor sg x1) /\ z3 = in_units false (interaction_value x2 F1 F2 * unit_factor sg x2)).
  { assert (A0 : f1 "phi_0" = f2 "phi_0") by (apply An; simpl; auto). assert (A1 : f1 "phi_ex" = f2 "phi_ex") by (apply An; simpl; auto 6).
    destruct m.
    - destruct (calc_at_mono _ _ _ _ _ _ _ _ _ _ _ _ _ _ H1 eq_refl) as (F1 & F2 & D3 & J1 & J2).
      destruct (calc_at_mono _ _ _ _ _ _ _ _ _ _ _ _ _ _ H2 eq_refl) as (G1 & G2 & E3 & K1 & K2).
      rewrite <- A0, <- A1, <- S2, <- S3, <- S4 in K1, K2. unfold is_Fint in *.
      assert (F1 = G1) by (eapply is_F_same; [| |exact J1|exact K1]; intros th ph; cbv beta; [now rewrite EV|now rewrite ES]).
      assert (F2 = G2) by (eapply is_F_same; [| |exact J2|exact K2]; intros th ph; cbv beta; [now rewrite EV|now rewrite ES]).
      subst G1 G2. exists F1, F2. auto.
    - destruct Md as [Md|[Nf1 Nf2]]; [discriminate|].
      destruct (calc_at_bi _ _ _ _ _ _ _ _ _ _ _ _ _ _ H1 eq_refl Nf1) as (F1 & F2 & D3 & J1 & J2).
      destruct (calc_at_bi _ _ _ _ _ _ _ _ _ _ _ _ _ _ H2 eq_refl Nf2) as (G1 & G2 & E3 & K1 & K2).
      rewrite <- A0, <- A1, <- S2, <- S3, <- S4 in K1, K2. unfold is_Fint in *.
      assert (F1 = G1) by (eapply is_F_same; [| |exact J1|exact K1]; intros th ph; cbv beta; [now rewrite EV|now rewrite ES]).
      assert (F2 = G2) by (eapply is_F_same; [| |exact J2|exact K2]; intros th ph; cbv beta; [now rewrite EV|now rewrite ES]).
      subst G1 G2. exists F1, F2. auto. }
  destruct I as (F1 & F2 & D3 & E3). cbn [in_units] in *.
  assert (U : unit_factor sg x2 = unit_factor sg x1) by (unfold unit_factor; now rewrite S1, S2).
  do 3 eexists. split; [exact D1|]. split; [exact D2|]. split; [exact D3|]. rewrite E1, E2, E3, U.
  unfold surface_value, volume_value, interaction_value, attenuation. rewrite <- S1, <- S2, <- S3, <- S4, <- S5, <- Vq, <- Sq, Ea, Eb.
  split; [f_equal; ring|]. split; f_equal; ring.
Qed.
Print Assumptions C72_scaling.

(** The two states differ only in omega (1/3 against 2/3) and NormBRDF (1/4 against 3/4). *)
Example C72_nonvacuous m : exists w1 x1 f1 y1 y2 y3 w2 x2 f2 z1 z2 z3 V SRF,
  calc_at w1 0 nil (1%nat :: nil) m false false x1 f1 V SRF y1 y2 y3 /\
  calc_at w2 0 nil (1%nat :: nil) m false false x2 f2 V SRF z1 z2 z3 /\
  (forall s, In s ("theta_0" :: "theta_ex" :: "phi_0" :: "phi_ex" :: nil) -> f1 s = f2 s) /\ same_params f1 f2 V SRF /\
  (forall c, ~ obs_fixed (fst (step w1 (OCalc 0 nil))) 0 c) /\ (forall c, ~ obs_fixed (fst (step w2 (OCalc 0 nil))) 0 c) /\
  p_I0 x1 = p_I0 x2 /\ p_t0 x1 = p_t0 x2 /\ p_tex x1 = p_tex x2 /\ p_tau x1 = p_tau x2 /\ p_bsfr x1 = p_bsfr x2 /\
  p_norm x2 = 3 * p_norm x1 /\ p_omega x2 = 2 * p_omega x1 /\ 0 < p_norm x1 /\ 0 < p_omega x1.
Proof.
  set (g := if m then Mono else Bi).
  destruct (wC_calc g 1 1 0 (0 + PI) cos1_lt cos1_lt) as (y1 & y2 & y3 & H1).
  destruct (wS_calc g 1 1 0 (0 + PI) cos1_lt cos1_lt) as (z1 & z2 & z3 & H2).
  exists (wC g 1 1 0 (0 + PI)), (xC g 1 1 0 (0 + PI)), (fC g 1 1 0 (0 + PI)), y1, y2, y3, (wS g 1 1 0 (0 + PI)), (xS g 1 1 0 (0 + PI)), (fS g 1 1 0 (0 + PI)), z1, z2, z3, VC, SC.
  assert (Em : is_mono g = m) by (unfold g; destruct m; reflexivity). rewrite Em in H1, H2.
  assert (Ng : g <> BiFix) by (unfold g; destruct m; discriminate). clearbody g.
  split; [exact H1|]. split; [exact H2|].
  split. { intros s Hs. unfold fC, fS. simpl in Hs. repeat (destruct Hs as [<-|Hs]; [reflexivity|]). contradiction. }
  split. { intros s Hs. unfold fC, fS. simpl in Hs. repeat (first [destruct Hs as [Hs|Hs]|contradiction]); subst; reflexivity. }
  split; [now apply wC_nofix|]. split; [now apply wS_nofix|].
  cbn [xC xS p_I0 p_t0 p_tex p_tau p_bsfr p_norm p_omega]. do 5 (split; [reflexivity|]). repeat split; lra.
Qed.
