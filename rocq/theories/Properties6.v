(** Concrete cases of C20, C30 - C33, and the cases where the program departs from C30 - C32. *)
From Coquelicot Require Import Coquelicot.
From Coq Require Import Lia List.
From Verif Require Import SpecScat SpecExp SpecInt Flip.
From Verif Require Export Properties5 Wit4.
Open Scope string_scope.
Open Scope nat_scope.
Open Scope list_scope.

Section Here.
  Context (g : mode) (t0 tex p0 pex : R).
  Hypothesis (C0 : (0 < cos t0 < 1)%R) (C1 : (0 < cos tex < 1)%R).
  Notation W := (wC g t0 tex p0 pex).
  Notation F := (fC g t0 tex p0 pex).
  Notation X := (xC g t0 tex p0 pex).
  Lemma wC_calc : exists y1 y2 y3, calc_at W 0 nil (1 :: nil) (is_mono g) false false X F VC SC y1 y2 y3.
  Proof.
    pose proof (wC_good g t0 tex p0 pex) as G.
    destruct (wC_obs g t0 tex p0 pex (OSurface 0 nil) eq_refl) as (s & Es & Ss).
    destruct (wC_obs g t0 tex p0 pex (OVolume 0 nil) eq_refl) as (v & Ev & Sv).
    destruct (wC_obs g t0 tex p0 pex (OInteraction 0 nil) eq_refl) as (ii & Ei & Si).
    assert (T : exists tau, obs_param W 0 Tau tau /\ shp tau <> nil).
    { unfold obs_param. assert (A : is_arr (snd (step W (OReadParam 0 Tau))) = true /\ match snd (step W (OReadParam 0 Tau)) with RetArr a => shp a | _ => nil end = 2 :: nil) by (destruct g; split; vm_compute; reflexivity).
      destruct A as [A B]. destruct (is_arr_ex _ A) as [a Ha]. exists a. split; [exact Ha|]. rewrite Ha in B. rewrite B. discriminate. }
    destruct T as (tau & Ht & Nt).
    destruct (calc_exists W 0 s v ii tau G Es Ev Ei Ht Nt) as (a & Ha & Sa); [congruence..|].
    exists (get (row a 1) (1 :: nil)), (get (row a 2) (1 :: nil)), (get (row a 3) (1 :: nil)), a.
    split; [apply wC_tidy; [intros []|exact I|intros; apply adm_nil]|]. split; [exact Ha|].
    split; [apply flags_after; [exact G|apply wC_flags]|]. split; [apply mode_after; [exact G|apply wC_flags]|].
    split; [rewrite Sa, Ss; repeat constructor; lia|]. split; [apply sample_after; [exact G|now apply wC_sample]|].
    split; [apply wC_ok|]. split; [apply wC_ok|]. split; [discriminate|]. auto.
  Qed.
  Lemma wC_nofix : g <> BiFix -> forall b, ~ obs_fixed (fst (step W (OCalc 0 nil))) 0 b.
  Proof.
    intros N b H. apply fixed_after in H; [|apply wC_good|destruct g; eexists; vm_compute; reflexivity]. apply wC_fixed in H. destruct H as [H _]. contradiction.
  Qed.
  Lemma exp_VC a b c d : expansion_value F VC a b c d = (c_hg (1/4) 0%nat + c_hg (1/4) 1%nat * cos_angle (ev_a F a_vol) a b c d)%R.
  Proof. unfold expansion_value. match goal with |- leg_series ?c ?n ?z = _ => change n with 2; change (leg_series c 2 z) with (0 + c 0%nat * legP 0%nat z + c 1%nat * legP 1%nat z)%R end. cbn [scat_a coef_value evalR]. change (F "t") with (1/4)%R. rewrite legP_0, legP_1. ring. Qed.
  Lemma exp_SC a b c d : expansion_value F SC a b c d = (c_bhg (1/4) 0%nat + c_bhg (1/4) 1%nat * cos_angle (ev_a F a_srf) a b c d)%R.
  Proof. unfold expansion_value. match goal with |- leg_series ?c ?n ?z = _ => change n with 2; change (leg_series c 2 z) with (0 + c 0%nat * legP 0%nat z + c 1%nat * legP 1%nat z)%R end. cbn [scat_a coef_value evalR]. change (F "t") with (1/4)%R. rewrite legP_0, legP_1. ring. Qed.
  Lemma ga_VC : ga1 (ev_a F a_vol) = 1%R /\ ga2 (ev_a F a_vol) = 1%R /\ ga1 (ev_a F a_srf) = 1%R /\ ga2 (ev_a F a_srf) = 1%R.
  Proof. unfold ev_a. cbn [ga1 ga2 a_vol a_srf a1 a2 evalR]. rewrite Q2R_1'. auto. Qed.
  (** turning the azimuth of the exit direction by pi changes the integrals of the two expansions *)
  Lemma flip_Fint tau a b c d G G' : (0 < tau)%R -> (0 < cos a < 1)%R ->
    is_Fint (expansion_value F VC) (expansion_value F SC) tau a c b d G ->
    is_Fint (expansion_value F VC) (expansion_value F SC) tau a c b (d + PI) G' ->
    exists K, (0 < K)%R /\ (G - G' = K * (sin a * sin b * cos (c - d)))%R.
  Proof.
    intros Tp Ca H1 H2. unfold is_Fint in *.
    set (p := fun th ph => (c_hg (1/4) 0%nat + c_hg (1/4) 1%nat * cos_angle (ev_a F a_vol) (PI - a) th c ph)%R).
    set (b' := fun pe th ph => (c_bhg (1/4) 0%nat + c_bhg (1/4) 1%nat * cos_angle (ev_a F a_srf) th b ph pe)%R).
    assert (E1 : is_F (cos a) tau p (b' d) G) by (eapply is_F_ext; [| |exact H1]; intros th ph; unfold p, b'; [now rewrite <- exp_VC|now rewrite <- exp_SC]).
    assert (E2 : is_F (cos a) tau p (b' (d + PI)%R) G') by (eapply is_F_ext; [| |exact H2]; intros th ph; unfold p, b'; [now rewrite <- exp_VC|now rewrite <- exp_SC]).
    destruct (deg1_flip (cos a) tau _ _ _ _ (PI - a) b c d (ev_a F a_vol) (ev_a F a_srf) Ca Tp G G' E1 E2) as (Wt & Wp & D).
    destruct ga_VC as (A1 & A2 & A3 & A4). rewrite A1, A2, A3, A4 in D.
    replace (sin (PI - a)) with (sin a) in D by (rewrite sin_PI_x; reflexivity).
    exists (2 * PI * c_hg (1/4) 1%nat * c_bhg (1/4) 1%nat * Wt)%R. rewrite cos_minus.
    split; [|rewrite D; ring]. pose proof PI_RGT_0 as Pp.
    assert (B1 : (0 < c_hg (1/4) 1%nat)%R). { unfold c_hg. apply Rmult_lt_0_compat; [apply Rmult_lt_0_compat; [apply Rdiv_lt_0_compat; lra|simpl; lra]|simpl; lra]. }
    assert (B2 : (0 < c_bhg (1/4) 1%nat)%R). { unfold c_bhg. apply Rmult_lt_0_compat; [apply Rmult_lt_0_compat; [apply Rdiv_lt_0_compat; lra|simpl; lra]|simpl; lra]. }
    repeat (first [assumption|lra|apply Rmult_lt_0_compat]).
  Qed.
End Here.

(** [C30_intended]: C30 as stated, for every geometry *)
Definition C30_intended : Prop := forall w p o i y iq sg db x f V SRF,
  let w' := fst (step w p) in
  tidy w p -> returns_interaction w p o i y -> obs_flags w' o iq sg db -> sample w' o i x f V SRF -> (sg = true -> p_I0 x <> 0%R) ->
  exists F1 F2, y = in_units db (interaction_value x F1 F2 * unit_factor sg x) /\
    is_Fint (expansion_value f V) (expansion_value f SRF) (p_tau x) (p_t0 x) (f "phi_0") (p_tex x) (f "phi_ex") F1 /\
    is_Fint (expansion_value f V) (expansion_value f SRF) (p_tau x) (p_tex x) (f "phi_ex") (p_t0 x) (f "phi_0") F2.
Lemma sin1_pos : (0 < sin 1)%R.
Proof. apply sin_gt_0; pose proof PI2_1; lra. Qed.
Notation fBi := (fC Bi 1 1 0 (0 + PI)).
Notation xBi := (xC Bi 1 1 0 (0 + PI)).
(** at t_0 = t_ex = 1, p_0 = 0, p_ex = pi: the documented value is strictly smaller *)
Lemma flip_value F1 F2 G1 G2 :
  is_Fint (expansion_value fBi VC) (expansion_value fBi SC) 1 1 0 1 (0 + PI) F1 ->
  is_Fint (expansion_value fBi VC) (expansion_value fBi SC) 1 1 (0 + PI) 1 0 F2 ->
  is_Fint (expansion_value fBi VC) (expansion_value fBi SC) 1 1 0 1 (0 + PI + PI) G1 ->
  is_Fint (expansion_value fBi VC) (expansion_value fBi SC) 1 1 (0 + PI) 1 (0 + PI) G2 ->
  (interaction_value xBi F1 F2 < interaction_value xBi G1 G2)%R.
Proof.
  intros I1 I2 J1 J2. pose proof sin1_pos as S1. pose proof cos1_lt as C1.
  destruct (flip_Fint Bi 1 1 0 (0 + PI) 1 1 1 0 (0 + PI) F1 G1) as (K1 & P1 & D1); [lra|assumption..|].
  destruct (flip_Fint Bi 1 1 0 (0 + PI) 1 1 1 (0 + PI) 0 F2 G2) as (K2 & P2 & D2); [lra|assumption..|].
  replace (cos (0 - (0 + PI))) with (-1)%R in D1 by (replace (0 - (0 + PI))%R with (- PI)%R by ring; rewrite cos_neg, cos_PI; reflexivity).
  replace (cos (0 + PI - 0)) with (-1)%R in D2 by (replace (0 + PI - 0)%R with PI by ring; rewrite cos_PI; reflexivity).
  assert (L1 : (F1 < G1)%R) by (assert (0 < K1 * (sin 1 * sin 1))%R by (repeat apply Rmult_lt_0_compat; lra); nra).
  assert (L2 : (F2 < G2)%R) by (assert (0 < K2 * (sin 1 * sin 1))%R by (repeat apply Rmult_lt_0_compat; lra); nra).
  unfold interaction_value, xC. cbn [p_I0 p_t0 p_tex p_tau p_omega p_norm p_bsfr t1C].
  assert (E : (0 < exp (- (1) / cos 1))%R) by apply exp_pos. set (e := exp (- (1) / cos 1)) in *.
  assert (Q : (0 < e * (G1 - F1) + e * (G2 - F2))%R) by (apply Rplus_lt_0_compat; apply Rmult_lt_0_compat; lra).
  assert (0 < 1/4 * (1 - 0) * (2 * cos 1 * (1/3) * (e * (G1 - F1) + e * (G2 - F2))))%R by (repeat apply Rmult_lt_0_compat; lra).
  nra.
Qed.

Example C30_nonvacuous m : exists w p o i y iq sg db x f V SRF, let w' := fst (step w p) in
  tidy w p /\ returns_interaction w p o i y /\ obs_flags w' o iq sg db /\ obs_mode w' o m /\ sample w' o i x f V SRF /\ (sg = true -> p_I0 x <> 0%R).
Proof.
  destruct (wC_calc (if m then Mono else Bi) 1 1 0 (0 + PI) cos1_lt cos1_lt) as (y1 & y2 & y3 & H).
  exists (wC (if m then Mono else Bi) 1 1 0 (0 + PI)), (OCalc 0 nil), 0, (1 :: nil), y3, true, false, false,
    (xC (if m then Mono else Bi) 1 1 0 (0 + PI)), (fC (if m then Mono else Bi) 1 1 0 (0 + PI)), VC, SC.
  pose proof (calc_at_returns _ _ _ _ _ _ _ _ _ _ _ _ _ _ H) as R. destruct H as (a & T & E & Fl & M & Vi & S & _ & _ & I0 & _).
  intros w'. split; [exact T|]. split; [exact R|]. split; [exact Fl|]. split; [destruct m; exact M|]. split; [exact S|exact I0].
Qed.

Theorem C30_refuted : ~ C30_intended.
Proof.
  intros Q. destruct (wC_calc Bi 1 1 0 (0 + PI) cos1_lt cos1_lt) as (y1 & y2 & y3 & H).
  pose proof (calc_at_returns _ _ _ _ _ _ _ _ _ _ _ _ _ _ H) as R.
  destruct (calc_at_bi _ _ _ _ _ _ _ _ _ _ _ _ _ _ H eq_refl (wC_nofix Bi 1 1 0 (0 + PI) ltac:(discriminate))) as (G1 & G2 & EG & J1 & J2).
  destruct H as (a & T & E & Fl & M & Vi & S & _ & _ & I0 & _).
  destruct (Q _ _ _ _ _ _ _ _ _ _ _ _ T R Fl S I0) as (F1 & F2 & EF & I1 & I2). rewrite EG in EF.
  assert (L : (interaction_value xBi F1 F2 < interaction_value xBi G1 G2)%R) by (apply flip_value; assumption).
  injection EF as EF. unfold unit_factor in EF. lra.
Qed.
Print Assumptions C30_refuted.

(** *** C31: monostatic against bistatic at the same angles, no angle fixed *)
Definition C31_intended : Prop := forall w1 o1 kw1 i1 x1 f1 y1 y2 y3 w2 o2 kw2 i2 x2 f2 z1 z2 z3 sg db V SRF,
  calc_at w1 o1 kw1 i1 true sg db x1 f1 V SRF y1 y2 y3 ->
  calc_at w2 o2 kw2 i2 false sg db x2 f2 V SRF z1 z2 z3 ->
  (forall b, ~ obs_fixed (fst (step w2 (OCalc o2 kw2))) o2 b) ->
  (forall s, In s ("theta_0" :: "theta_ex" :: "phi_0" :: "phi_ex" :: nil) -> f1 s = f2 s) ->
  same_params f1 f2 V SRF -> same_numbers x1 x2 ->
  y1 = z1 /\ y2 = z2 /\ y3 = z3.
Theorem C31_refuted : ~ C31_intended.
Proof.
  intros Q. destruct (wC_calc Mono 1 1 0 (0 + PI) cos1_lt cos1_lt) as (y1 & y2 & y3 & H1).
  destruct (wC_calc Bi 1 1 0 (0 + PI) cos1_lt cos1_lt) as (z1 & z2 & z3 & H2).
  pose proof (wC_nofix Bi 1 1 0 (0 + PI) ltac:(discriminate)) as Nf.
  destruct (Q _ _ _ _ _ _ _ _ _ _ _ _ _ _ _ _ _ _ _ _ _ _ H1 H2 Nf) as (_ & _ & E3); [reflexivity|intros s _; reflexivity|repeat split; reflexivity|].
  destruct (calc_at_bi _ _ _ _ _ _ _ _ _ _ _ _ _ _ H2 eq_refl Nf) as (G1 & G2 & EG & J1 & J2).
  destruct (calc_at_mono _ _ _ _ _ _ _ _ _ _ _ _ _ _ H1 eq_refl) as (F1 & F2 & EF & I1 & I2).
  assert (L : (interaction_value xBi F1 F2 < interaction_value xBi G1 G2)%R) by (apply flip_value; assumption).
  rewrite EF, EG in E3. injection E3 as E3. unfold unit_factor in E3.
  change (interaction_value (xC Mono 1 1 0 (0 + PI)) F1 F2) with (interaction_value xBi F1 F2) in E3. lra.
Qed.
Print Assumptions C31_refuted.
Example C31_nonvacuous : exists w1 w2 y1 y2 y3 z1 z2 z3,
  calc_at w1 0 nil (1 :: nil) true false false (xC Mono 1 1 0 0) (fC Mono 1 1 0 0) VC SC y1 y2 y3 /\
  calc_at w2 0 nil (1 :: nil) false false false (xC Bi 1 1 0 0) (fC Bi 1 1 0 0) VC SC z1 z2 z3 /\
  (forall b, ~ obs_fixed (fst (step w2 (OCalc 0 nil))) 0 b) /\
  same_params (fC Mono 1 1 0 0) (fC Bi 1 1 0 0) VC SC /\ same_numbers (xC Mono 1 1 0 0) (xC Bi 1 1 0 0).
Proof.
  destruct (wC_calc Mono 1 1 0 0 cos1_lt cos1_lt) as (y1 & y2 & y3 & H1). destruct (wC_calc Bi 1 1 0 0 cos1_lt cos1_lt) as (z1 & z2 & z3 & H2).
  exists (wC Mono 1 1 0 0), (wC Bi 1 1 0 0), y1, y2, y3, z1, z2, z3. split; [exact H1|]. split; [exact H2|].
  split; [apply wC_nofix; discriminate|]. split; [|repeat split; reflexivity].
  intros s [H|H]; simpl in H; repeat (destruct H as [<-|H]; [reflexivity|]); contradiction.
Qed.

(** *** C32: any two states with the same angles, whatever was fixed *)
Definition C32_intended : Prop := forall m w1 o1 kw1 i1 x1 f1 y1 y2 y3 w2 o2 kw2 i2 x2 f2 z1 z2 z3 sg db V SRF,
  calc_at w1 o1 kw1 i1 m sg db x1 f1 V SRF y1 y2 y3 ->
  calc_at w2 o2 kw2 i2 m sg db x2 f2 V SRF z1 z2 z3 ->
  (forall s, In s ("theta_0" :: "theta_ex" :: "phi_0" :: "phi_ex" :: nil) -> f1 s = f2 s) ->
  same_params f1 f2 V SRF -> same_numbers x1 x2 ->
  y1 = z1 /\ y2 = z2 /\ y3 = z3.
(** p_0 = pi, p_ex = 0, with and without p_ex fixed *)
Theorem C32_refuted : ~ C32_intended.
Proof.
  intros Q. destruct (wC_calc Bi 1 1 PI (Q2R 0) cos1_lt cos1_lt) as (y1 & y2 & y3 & H1).
  destruct (wC_calc BiFix 1 1 PI (Q2R 0) cos1_lt cos1_lt) as (z1 & z2 & z3 & H2).
  destruct (Q _ _ _ _ _ _ _ _ _ _ _ _ _ _ _ _ _ _ _ _ _ _ _ H1 H2) as (_ & _ & E3); [reflexivity|intros s _; reflexivity|repeat split; reflexivity|].
  destruct (calc_at_bi _ _ _ _ _ _ _ _ _ _ _ _ _ _ H1 eq_refl (wC_nofix Bi 1 1 PI (Q2R 0) ltac:(discriminate))) as (F1 & F2 & EF & I1 & I2).
  pose proof (calc_at_returns _ _ _ _ _ _ _ _ _ _ _ _ _ _ H2) as R. pose proof H2 as (a & T & E & Fl & M & Vi & S & OV & OS & I0 & _).
  destruct (C30_bistatic_value _ _ _ _ _ _ _ _ _ _ _ _ T R Fl M S I0) as (G1 & G2 & t_in & p_in & t_out & p_out & EG & J1 & J2 & X1 & X2 & X3 & X4).
  assert (FX : forall b, obs_fixed (fst (step (wC BiFix 1 1 PI (Q2R 0)) (OCalc 0 nil))) 0 b <-> b = PEx).
  { intros b. split.
    - intros H. apply fixed_after in H; [|apply wC_good|eexists; vm_compute; reflexivity]. apply wC_fixed in H. tauto.
    - intros ->. apply fixed_after'; [apply wC_good|]. apply wC_fixed. auto. }
  rewrite (proj2 X1 (fun h => ltac:(apply FX in h; discriminate))), (proj2 X2 (fun h => ltac:(apply FX in h; discriminate))),
    (proj2 X3 (fun h => ltac:(apply FX in h; discriminate))), (proj1 X4 (proj2 (FX PEx) eq_refl)) in J2.
  assert (EQ1 : F1 = G1) by (eapply is_F_unique; [exact I1|exact J1]).
  assert (Z : Q2R 0 = 0%R) by (unfold Q2R; simpl; lra).
  change (is_Fint (expansion_value (fC BiFix 1 1 PI (Q2R 0)) VC) (expansion_value (fC BiFix 1 1 PI (Q2R 0)) SC) 1 1 (Q2R 0) 1 (Q2R 0 + PI) G2) in J2.
  change (is_Fint (expansion_value (fC BiFix 1 1 PI (Q2R 0)) VC) (expansion_value (fC BiFix 1 1 PI (Q2R 0)) SC) 1 1 (Q2R 0) 1 (PI + PI) F2) in I2.
  replace (PI + PI)%R with (Q2R 0 + PI + PI)%R in I2 by (rewrite Z; ring).
  destruct (flip_Fint BiFix 1 1 PI (Q2R 0) 1 1 1 (Q2R 0) (Q2R 0 + PI) G2 F2) as (K & Kp & D); [lra|exact cos1_lt|exact J2|exact I2|].
  replace (cos (Q2R 0 - (Q2R 0 + PI))) with (-1)%R in D by (replace (Q2R 0 - (Q2R 0 + PI))%R with (- PI)%R by ring; rewrite cos_neg, cos_PI; reflexivity).
  pose proof sin1_pos as S1. pose proof cos1_lt as C1.
  assert (L2 : (G2 < F2)%R) by (assert (0 < K * (sin 1 * sin 1))%R by (repeat apply Rmult_lt_0_compat; lra); nra).
  rewrite EF, EG, EQ1 in E3. injection E3 as E3. unfold unit_factor in E3.
  unfold interaction_value, xC in E3. cbn [p_I0 p_t0 p_tex p_tau p_omega p_norm p_bsfr t1C] in E3.
  assert (Ep : (0 < exp (- (1) / cos 1))%R) by apply exp_pos. set (e := exp (- (1) / cos 1)) in *.
  assert (0 < 1/4 * (1 - 0) * (2 * cos 1 * (1/3) * (e * (F2 - G2))))%R by (repeat apply Rmult_lt_0_compat; lra).
  nra.
Qed.
Print Assumptions C32_refuted.
Example C32_nonvacuous : exists w1 w2 y1 y2 y3 z1 z2 z3,
  calc_at w1 0 nil (1 :: nil) true false false (xC Mono 1 1 0 0) (fC Mono 1 1 0 0) VC SC y1 y2 y3 /\
  calc_at w2 0 nil (1 :: nil) true false false (xC Mono 1 1 0 1) (fC Mono 1 1 0 1) VC SC z1 z2 z3.
Proof.
  destruct (wC_calc Mono 1 1 0 0 cos1_lt cos1_lt) as (y1 & y2 & y3 & H1). destruct (wC_calc Mono 1 1 0 1 cos1_lt cos1_lt) as (z1 & z2 & z3 & H2).
  exists (wC Mono 1 1 0 0), (wC Mono 1 1 0 1), y1, y2, y3, z1, z2, z3. auto.
Qed.

(** *** C20: the two directions exchanged *)
Example C20_nonvacuous : exists w1 w2 y1 y2 y3 z1 z2 z3, let f1 := fC Bi 1 (1/2) 0 (1/3) in let f2 := fC Bi (1/2) 1 (1/3) 0 in
  calc_at w1 0 nil (1 :: nil) false false false (xC Bi 1 (1/2) 0 (1/3)) f1 VC SC y1 y2 y3 /\
  calc_at w2 0 nil (1 :: nil) false false false (xC Bi (1/2) 1 (1/3) 0) f2 VC SC z1 z2 z3 /\
  (forall b, ~ obs_fixed (fst (step w1 (OCalc 0 nil))) 0 b) /\ (forall b, ~ obs_fixed (fst (step w2 (OCalc 0 nil))) 0 b) /\
  f2 "theta_0" = f1 "theta_ex" /\ f2 "theta_ex" = f1 "theta_0" /\ f2 "phi_0" = f1 "phi_ex" /\ f2 "phi_ex" = f1 "phi_0" /\
  same_params f1 f2 VC SC /\ same_layer (xC Bi 1 (1/2) 0 (1/3)) (xC Bi (1/2) 1 (1/3) 0).
Proof.
  assert (C2 : (0 < cos (1/2) < 1)%R).
  { split; [apply cos_gt_0; pose proof PI2_1; lra|]. apply (Rlt_le_trans _ (cos 0)); [|rewrite cos_0; lra]. apply cos_decreasing_1; pose proof PI_RGT_0; pose proof PI2_1; lra. }
  destruct (wC_calc Bi 1 (1/2) 0 (1/3) cos1_lt C2) as (y1 & y2 & y3 & H1). destruct (wC_calc Bi (1/2) 1 (1/3) 0 C2 cos1_lt) as (z1 & z2 & z3 & H2).
  exists (wC Bi 1 (1/2) 0 (1/3)), (wC Bi (1/2) 1 (1/3) 0), y1, y2, y3, z1, z2, z3. intros f1 f2. split; [exact H1|]. split; [exact H2|].
  split; [apply wC_nofix; discriminate|]. split; [apply wC_nofix; discriminate|]. do 4 (split; [reflexivity|]). split; [|repeat split; reflexivity].
  intros s [H|H]; simpl in H; repeat (destruct H as [<-|H]; [reflexivity|]); contradiction.
Qed.
(** *** C33: two incidence azimuths *)
Example C33_nonvacuous : exists w1 w2 y1 y2 y3 z1 z2 z3, let f1 := fC Mono 1 1 0 0 in let f2 := fC Mono 1 1 (1/3) 0 in
  calc_at w1 0 nil (1 :: nil) true false false (xC Mono 1 1 0 0) f1 VC SC y1 y2 y3 /\
  calc_at w2 0 nil (1 :: nil) true false false (xC Mono 1 1 (1/3) 0) f2 VC SC z1 z2 z3 /\
  az_sym f1 VC /\ az_sym f1 SC /\ same_params f1 f2 VC SC /\ same_numbers (xC Mono 1 1 0 0) (xC Mono 1 1 (1/3) 0).
Proof.
  destruct (wC_calc Mono 1 1 0 0 cos1_lt cos1_lt) as (y1 & y2 & y3 & H1). destruct (wC_calc Mono 1 1 (1/3) 0 cos1_lt cos1_lt) as (z1 & z2 & z3 & H2).
  exists (wC Mono 1 1 0 0), (wC Mono 1 1 (1/3) 0), y1, y2, y3, z1, z2, z3. intros f1 f2. split; [exact H1|]. split; [exact H2|].
  split; [intros b [<-|[]]; reflexivity|]. split; [intros b [<-|[]]; reflexivity|]. split; [|repeat split; reflexivity].
  intros s [H|H]; simpl in H; repeat (destruct H as [<-|H]; [reflexivity|]); contradiction.
Qed.
