(** The azimuth angles: only the directions matter (C77, C78). *)
From Coquelicot Require Import Coquelicot.
From Coq Require Import Lia List.
From Verif Require Import SpecScat SpecExp SpecInt Flip.
From Verif Require Import Properties6.
Open Scope string_scope.
Open Scope nat_scope.
Open Scope list_scope.

(** the mirrored integral over a full period *)
Lemma is_mirror (h : R -> R) I : (forall x, h (x + 2 * PI) = h x)%R -> is_RInt h 0 (2 * PI) I -> is_RInt (fun x => h (- x)%R) 0 (2 * PI) I.
Proof.
  intros P H. apply is_RInt_swap in H.
  assert (X : is_RInt (fun y => scal (-1)%R (h (-1 * y + 2 * PI)%R)) 0 (2 * PI) (opp I)).
  { apply (is_RInt_comp_lin h (-1) (2 * PI) 0 (2 * PI)). replace (-1 * 0 + 2 * PI)%R with (2 * PI)%R by ring. replace (-1 * (2 * PI) + 2 * PI)%R with 0%R by ring. exact H. }
  apply is_RInt_opp in X. rewrite opp_opp in X. eapply is_RInt_ext; [|exact X].
  intros x _. unfold opp, scal; simpl; unfold mult; simpl. rewrite <- (P (- x)%R). replace (-1 * x + 2 * PI)%R with (- x + 2 * PI)%R by ring. ring.
Qed.

(** [turned s p p']: the azimuths [p'] and [p] are the same direction ([s] = 1) or mirror images of each other ([s] = -1) *)
Definition turned (s p p' : R) : Prop := cos p' = cos p /\ sin p' = (s * sin p)%R.
Lemma turned_ang s a t0 tex p0 pex p0' pex' : (s * s = 1)%R -> turned s p0 p0' -> turned s pex pex' ->
  cos_angle a t0 tex p0' pex' = cos_angle a t0 tex p0 pex.
Proof.
  intros Q [A B] [C D]. apply cos_angle_dirs; [now rewrite A, C|]. rewrite B, D. transitivity (s * s * (sin p0 * sin pex))%R; [ring|]. rewrite Q. ring.
Qed.
Lemma is_Fint_turned f V SRF tau t0 p0 tex pex s p0' pex' F : (s = 1 \/ s = -1)%R -> turned s p0 p0' -> turned s pex pex' ->
  is_Fint (expansion_value f V) (expansion_value f SRF) tau t0 p0 tex pex F ->
  is_Fint (expansion_value f V) (expansion_value f SRF) tau t0 p0' tex pex' F.
Proof.
  intros Sg [A B] [C D]. unfold is_Fint. destruct Sg as [-> | ->].
  - apply is_F_ext; intros th ph; apply expansion_dirs; rewrite ?A, ?B, ?C, ?D; ring.
  - apply is_F_az. intros th I H.
    set (h := (fun u => expansion_value f V (PI - t0) th p0 u * expansion_value f SRF th tex u pex)%R) in *.
    eapply is_RInt_ext; [|apply (is_mirror h); [|exact H]].
    + intros ph _. unfold h. f_equal; apply expansion_dirs; rewrite ?A, ?B, ?C, ?D, ?cos_neg, ?sin_neg; ring.
    + intros u. unfold h. f_equal; apply expansion_dirs; rewrite ?(cos_2 u), ?(sin_2 u); reflexivity.
Qed.

(** two evaluations with the same phase functions at the given directions and the same integrals F *)
Lemma azimuths_same w1 o1 kw1 i1 x1 f1 y1 y2 y3 w2 o2 kw2 i2 x2 f2 z1 z2 z3 mono sg db V SRF :
  calc_at w1 o1 kw1 i1 mono sg db x1 f1 V SRF y1 y2 y3 ->
  calc_at w2 o2 kw2 i2 mono sg db x2 f2 V SRF z1 z2 z3 ->
  (mono = false -> forall b, ~ obs_fixed (fst (step w1 (OCalc o1 kw1))) o1 b) ->
  (mono = false -> forall b, ~ obs_fixed (fst (step w2 (OCalc o2 kw2))) o2 b) ->
  same_params f1 f2 V SRF -> same_numbers x1 x2 ->
  (forall b t0 tex, In b (all_a V) \/ In b (all_a SRF) ->
     cos_angle (ev_a f1 b) t0 tex (f1 "phi_0") (f1 "phi_ex") = cos_angle (ev_a f1 b) t0 tex (f2 "phi_0") (f2 "phi_ex")) ->
  (Forall is_basic (members V) -> Forall is_basic (members SRF) -> forall e tau t0 tex F, (e = 0 \/ e = PI)%R ->
     is_Fint (expansion_value f1 V) (expansion_value f1 SRF) tau t0 (f1 "phi_0") tex (f1 "phi_ex" + e) F ->
     is_Fint (expansion_value f1 V) (expansion_value f1 SRF) tau t0 (f2 "phi_0") tex (f2 "phi_ex" + e) F) ->
  (Forall is_basic (members V) -> Forall is_basic (members SRF) -> forall e tau t0 tex F, (e = 0 \/ e = PI)%R ->
     is_Fint (expansion_value f1 V) (expansion_value f1 SRF) tau t0 (f1 "phi_ex") tex (f1 "phi_0" + e) F ->
     is_Fint (expansion_value f1 V) (expansion_value f1 SRF) tau t0 (f2 "phi_ex") tex (f2 "phi_0" + e) F) ->
  y1 = z1 /\ y2 = z2 /\ y3 = z3.
Proof.
  intros H1 H2 N1 N2 SP SN HA HF HG.
  destruct (calc_at_direct _ _ _ _ _ _ _ _ _ _ _ _ _ _ H1) as [D1 D2]. destruct (calc_at_direct _ _ _ _ _ _ _ _ _ _ _ _ _ _ H2) as [E1 E2].
  destruct (calc_at_phase _ _ _ _ _ _ _ _ _ _ _ _ _ _ H1) as (P1 & P2 & P3 & P4). destruct (calc_at_phase _ _ _ _ _ _ _ _ _ _ _ _ _ _ H2) as (Q1 & Q2 & Q3 & Q4).
  destruct (calc_at_basic _ _ _ _ _ _ _ _ _ _ _ _ _ _ H1) as [BV BS].
  assert (exists e, (e = 0 \/ e = PI)%R /\ exists F1 F2 G1 G2, y3 = in_units db (interaction_value x1 F1 F2 * unit_factor sg x1) /\ z3 = in_units db (interaction_value x2 G1 G2 * unit_factor sg x2) /\
    is_Fint (expansion_value f1 V) (expansion_value f1 SRF) (p_tau x1) (p_t0 x1) (f1 "phi_0") (p_tex x1) (f1 "phi_ex" + e) F1 /\
    is_Fint (expansion_value f1 V) (expansion_value f1 SRF) (p_tau x1) (p_tex x1) (f1 "phi_ex") (p_t0 x1) (f1 "phi_0" + e) F2 /\
    is_Fint (expansion_value f2 V) (expansion_value f2 SRF) (p_tau x2) (p_t0 x2) (f2 "phi_0") (p_tex x2) (f2 "phi_ex" + e) G1 /\
    is_Fint (expansion_value f2 V) (expansion_value f2 SRF) (p_tau x2) (p_tex x2) (f2 "phi_ex") (p_t0 x2) (f2 "phi_0" + e) G2)
    as (e & He & F1 & F2 & G1 & G2 & D3 & E3 & J1 & J2 & K1 & K2).
  { destruct mono.
    - destruct (calc_at_mono _ _ _ _ _ _ _ _ _ _ _ _ _ _ H1 eq_refl) as (F1 & F2 & D3 & J1 & J2).
      destruct (calc_at_mono _ _ _ _ _ _ _ _ _ _ _ _ _ _ H2 eq_refl) as (G1 & G2 & E3 & K1 & K2).
      exists 0%R. split; [now left|]. exists F1, F2, G1, G2. rewrite !Rplus_0_r. auto 10.
    - destruct (calc_at_bi _ _ _ _ _ _ _ _ _ _ _ _ _ _ H1 eq_refl (N1 eq_refl)) as (F1 & F2 & D3 & J1 & J2).
      destruct (calc_at_bi _ _ _ _ _ _ _ _ _ _ _ _ _ _ H2 eq_refl (N2 eq_refl)) as (G1 & G2 & E3 & K1 & K2).
      exists PI. split; [now right|]. exists F1, F2, G1, G2. auto 10. }
  pose proof SN as (S1 & S2 & S3 & S4 & S5 & S6 & S7).
  assert (T1 : f2 "theta_0" = f1 "theta_0") by (clear - P3 Q3 S2; congruence). assert (T2 : f2 "theta_ex" = f1 "theta_ex") by (clear - P4 Q4 S3; congruence).
  assert (Vq : p_vol x1 = p_vol x2).
  { rewrite P1, Q1; apply phase_same; [intros y Hy; apply SP; auto|assumption|]. intros b Hb. rewrite T1, T2. apply HA. auto. }
  assert (Sq : p_brdf x1 = p_brdf x2).
  { rewrite P2, Q2; apply phase_same; [intros y Hy; apply SP; auto|assumption|]. intros b Hb. rewrite T1, T2. apply HA. auto. }
  destruct (direct_same x1 x2 sg SN Vq Sq) as (X1 & X2 & X3 & X4).
  assert (EV : forall a b c d, expansion_value f2 V a b c d = expansion_value f1 V a b c d).
  { intros. apply expansion_value_ext; [assumption|]. intros s Hs. symmetry. apply SP. auto. }
  assert (ES : forall a b c d, expansion_value f2 SRF a b c d = expansion_value f1 SRF a b c d).
  { intros. apply expansion_value_ext; [assumption|]. intros s Hs. symmetry. apply SP. auto. }
  apply HF in J1; try assumption. apply HG in J2; try assumption. rewrite S2, S3, S4 in J1, J2. unfold is_Fint in *.
  assert (Q1' : F1 = G1) by (eapply is_F_same; [| |exact J1|exact K1]; intros th ph; cbv beta; [now rewrite EV|now rewrite ES]).
  assert (Q2' : F2 = G2) by (eapply is_F_same; [| |exact J2|exact K2]; intros th ph; cbv beta; [now rewrite EV|now rewrite ES]).
  rewrite D1, D2, D3, E1, E2, E3, X1, X2, X3, X4, Q1', Q2'. auto.
Qed.

(** *** C77.  In bistatic mode (no angle fixed), rotating both azimuths by the same amount changes no
    contribution if a[1] == a[2] in all the functions. *)
Theorem C77_rotation : forall w1 o1 kw1 i1 x1 f1 y1 y2 y3 w2 o2 kw2 i2 x2 f2 z1 z2 z3 sg db V SRF c,
  calc_at w1 o1 kw1 i1 false sg db x1 f1 V SRF y1 y2 y3 ->
  calc_at w2 o2 kw2 i2 false sg db x2 f2 V SRF z1 z2 z3 ->
  (forall b, ~ obs_fixed (fst (step w1 (OCalc o1 kw1))) o1 b) -> (forall b, ~ obs_fixed (fst (step w2 (OCalc o2 kw2))) o2 b) ->
  az_sym f1 V -> az_sym f1 SRF ->
  f2 "phi_0" = (f1 "phi_0" + c)%R -> f2 "phi_ex" = (f1 "phi_ex" + c)%R ->
  same_params f1 f2 V SRF -> same_numbers x1 x2 ->
  y1 = z1 /\ y2 = z2 /\ y3 = z3.
Proof.
  intros w1 o1 kw1 i1 x1 f1 y1 y2 y3 w2 o2 kw2 i2 x2 f2 z1 z2 z3 sg db V SRF c H1 H2 N1 N2 ZV ZS C1 C2 SP SN.
  apply (azimuths_same w1 o1 kw1 i1 x1 f1 y1 y2 y3 w2 o2 kw2 i2 x2 f2 z1 z2 z3 false sg db V SRF); auto.
  - intros b t0 tex Hb. rewrite C1, C2. symmetry. apply az_angle. destruct Hb as [Hb|Hb]; [now apply ZV|now apply ZS].
  - intros BV BS e tau t0 tex F _ H. rewrite C1, C2. replace (f1 "phi_ex" + c + e)%R with (f1 "phi_ex" + e + c)%R by ring. now apply is_Fint_rotate.
  - intros BV BS e tau t0 tex F _ H. rewrite C1, C2. replace (f1 "phi_0" + c + e)%R with (f1 "phi_0" + e + c)%R by ring. now apply is_Fint_rotate.
Qed.
Print Assumptions C77_rotation.
Example C77_nonvacuous : exists w1 w2 y1 y2 y3 z1 z2 z3, let f1 := fC Bi 1 1 0 (1/3) in let f2 := fC Bi 1 1 (1/4) (1/3 + 1/4) in
  calc_at w1 0 nil (1 :: nil) false false false (xC Bi 1 1 0 (1/3)) f1 VC SC y1 y2 y3 /\
  calc_at w2 0 nil (1 :: nil) false false false (xC Bi 1 1 (1/4) (1/3 + 1/4)) f2 VC SC z1 z2 z3 /\
  (forall b, ~ obs_fixed (fst (step w1 (OCalc 0 nil))) 0 b) /\ (forall b, ~ obs_fixed (fst (step w2 (OCalc 0 nil))) 0 b) /\
  az_sym f1 VC /\ az_sym f1 SC /\ f2 "phi_0" = (f1 "phi_0" + 1/4)%R /\ f2 "phi_ex" = (f1 "phi_ex" + 1/4)%R /\
  same_params f1 f2 VC SC /\ same_numbers (xC Bi 1 1 0 (1/3)) (xC Bi 1 1 (1/4) (1/3 + 1/4)).
Proof.
  destruct (wC_calc Bi 1 1 0 (1/3) cos1_lt cos1_lt) as (y1 & y2 & y3 & H1). destruct (wC_calc Bi 1 1 (1/4) (1/3 + 1/4) cos1_lt cos1_lt) as (z1 & z2 & z3 & H2).
  exists (wC Bi 1 1 0 (1/3)), (wC Bi 1 1 (1/4) (1/3 + 1/4)), y1, y2, y3, z1, z2, z3. intros f1 f2. split; [exact H1|]. split; [exact H2|].
  split; [apply wC_nofix; discriminate|]. split; [apply wC_nofix; discriminate|].
  split; [intros b [<-|[]]; reflexivity|]. split; [intros b [<-|[]]; reflexivity|].
  split; [change (1/4 = 0 + 1/4)%R; ring|]. split; [reflexivity|]. split; [|repeat split; reflexivity].
  intros s [H|H]; simpl in H; repeat (destruct H as [<-|H]; [reflexivity|]); contradiction.
Qed.

(** the azimuths are the same up to full turns ([s] = 1), or mirrored up to full turns ([s] = -1) *)
Lemma full_turns k x : (cos (x + 2 * IZR k * PI) = cos x /\ sin (x + 2 * IZR k * PI) = sin x)%R.
Proof.
  assert (G : forall n x, (cos (x + 2 * INR n * PI) = cos x /\ sin (x + 2 * INR n * PI) = sin x)%R) by (intros; split; [apply cos_period|apply sin_period]).
  destruct k as [|q|q].
  - replace (x + 2 * 0 * PI)%R with x by ring. auto.
  - rewrite <- (positive_nat_Z q), <- INR_IZR_INZ. apply G.
  - change (Z.neg q) with (- Z.pos q)%Z. rewrite opp_IZR, <- (positive_nat_Z q), <- INR_IZR_INZ.
    destruct (G (Pos.to_nat q) (x + 2 * - INR (Pos.to_nat q) * PI)%R) as [A B].
    replace (x + 2 * - INR (Pos.to_nat q) * PI + 2 * INR (Pos.to_nat q) * PI)%R with x in A, B by ring. auto.
Qed.
Lemma turned_by s p k : (s = 1 \/ s = -1)%R -> turned s p (s * p + 2 * IZR k * PI)%R.
Proof.
  intros Sg. destruct (full_turns k (s * p)%R) as [A B]. unfold turned. rewrite A, B.
  destruct Sg as [-> | ->]; [now rewrite !Rmult_1_l|]. replace (-1 * p)%R with (- p)%R by ring. rewrite cos_neg, sin_neg. split; ring.
Qed.
(** *** C78.  Changing each azimuth by full turns, or mirroring both of them (p -> -p), changes no
    contribution, in monostatic mode and in bistatic mode without fixed angles, for all weights a. *)
Theorem C78_turns_and_mirror : forall w1 o1 kw1 i1 x1 f1 y1 y2 y3 w2 o2 kw2 i2 x2 f2 z1 z2 z3 mono sg db V SRF s k l,
  calc_at w1 o1 kw1 i1 mono sg db x1 f1 V SRF y1 y2 y3 ->
  calc_at w2 o2 kw2 i2 mono sg db x2 f2 V SRF z1 z2 z3 ->
  (mono = false -> forall b, ~ obs_fixed (fst (step w1 (OCalc o1 kw1))) o1 b) ->
  (mono = false -> forall b, ~ obs_fixed (fst (step w2 (OCalc o2 kw2))) o2 b) ->
  (s = 1 \/ s = -1)%R ->
  f2 "phi_0" = (s * f1 "phi_0" + 2 * IZR k * PI)%R -> (mono = false -> f2 "phi_ex" = s * f1 "phi_ex" + 2 * IZR l * PI)%R ->
  same_params f1 f2 V SRF -> same_numbers x1 x2 ->
  y1 = z1 /\ y2 = z2 /\ y3 = z3.
Proof.
  intros w1 o1 kw1 i1 x1 f1 y1 y2 y3 w2 o2 kw2 i2 x2 f2 z1 z2 z3 mono sg db V SRF s k l H1 H2 N1 N2 Sg C1 C2 SP SN.
  assert (U0 : turned s (f1 "phi_0") (f2 "phi_0")) by (rewrite C1; now apply turned_by).
  assert (PIs : forall p p', turned s p p' -> turned s (p + PI) (p' + PI)).
  { intros p p' [A B]. unfold turned. rewrite !neg_cos, !neg_sin, A, B. split; ring. }
  assert (U1 : turned s (f1 "phi_ex") (f2 "phi_ex")).
  { destruct mono; [|rewrite C2 by reflexivity; now apply turned_by].
    rewrite (calc_at_pex _ _ _ _ _ _ _ _ _ _ _ _ _ _ H1 eq_refl), (calc_at_pex _ _ _ _ _ _ _ _ _ _ _ _ _ _ H2 eq_refl). now apply PIs. }
  apply (azimuths_same w1 o1 kw1 i1 x1 f1 y1 y2 y3 w2 o2 kw2 i2 x2 f2 z1 z2 z3 mono sg db V SRF); auto.
  - intros b t0 tex _. symmetry. apply (turned_ang s); auto. destruct Sg as [-> | ->]; ring.
  - intros _ _ e tau t0 tex F He H. eapply is_Fint_turned; [exact Sg|exact U0| |exact H].
    destruct He as [-> | ->]; [rewrite !Rplus_0_r; auto|now apply PIs].
  - intros _ _ e tau t0 tex F He H. eapply is_Fint_turned; [exact Sg|exact U1| |exact H].
    destruct He as [-> | ->]; [rewrite !Rplus_0_r; auto|now apply PIs].
Qed.
Print Assumptions C78_turns_and_mirror.
Example C78_nonvacuous : exists w1 w2 y1 y2 y3 z1 z2 z3, let f1 := fC Bi 1 1 (1/4) (1/3) in let f2 := fC Bi 1 1 (-1/4) (-1 * (1/3) + 2 * IZR (-5) * PI) in
  calc_at w1 0 nil (1 :: nil) false false false (xC Bi 1 1 (1/4) (1/3)) f1 VC SC y1 y2 y3 /\
  calc_at w2 0 nil (1 :: nil) false false false (xC Bi 1 1 (-1/4) (-1 * (1/3) + 2 * IZR (-5) * PI)) f2 VC SC z1 z2 z3 /\
  (forall b, ~ obs_fixed (fst (step w1 (OCalc 0 nil))) 0 b) /\ (forall b, ~ obs_fixed (fst (step w2 (OCalc 0 nil))) 0 b) /\
  f2 "phi_0" = (-1 * f1 "phi_0" + 2 * IZR 0 * PI)%R /\ f2 "phi_ex" = (-1 * f1 "phi_ex" + 2 * IZR (-5) * PI)%R /\
  same_params f1 f2 VC SC /\ same_numbers (xC Bi 1 1 (1/4) (1/3)) (xC Bi 1 1 (-1/4) (-1 * (1/3) + 2 * IZR (-5) * PI)).
Proof.
  destruct (wC_calc Bi 1 1 (1/4) (1/3) cos1_lt cos1_lt) as (y1 & y2 & y3 & H1). destruct (wC_calc Bi 1 1 (-1/4) (-1 * (1/3) + 2 * IZR (-5) * PI) cos1_lt cos1_lt) as (z1 & z2 & z3 & H2).
  exists (wC Bi 1 1 (1/4) (1/3)), (wC Bi 1 1 (-1/4) (-1 * (1/3) + 2 * IZR (-5) * PI)), y1, y2, y3, z1, z2, z3. intros f1 f2. split; [exact H1|]. split; [exact H2|].
  split; [apply wC_nofix; discriminate|]. split; [apply wC_nofix; discriminate|].
  split; [change (-1/4 = -1 * (1/4) + 2 * 0 * PI)%R; field|]. split; [reflexivity|]. split; [|repeat split; reflexivity].
  intros s [H|H]; simpl in H; repeat (destruct H as [<-|H]; [reflexivity|]); contradiction.
Qed.
