(** Comparing evaluations: C20 (reciprocity), C31, C32, C33. *)
From Coquelicot Require Import Coquelicot.
From Coq Require Import Lia List.
From Verif Require Import SpecScat SpecExp SpecInt Flip.
From Verif Require Export Same.
Open Scope string_scope.
Open Scope nat_scope.
Open Scope list_scope.

(** [calc_at w o kw i mono sg db x f V SRF y1 y2 y3]: in state [w], after a tidy history, calc() of an
    object with int_Q=True in the given measurement mode and units returns the surface, volume and
    interaction contributions [y1], [y2], [y3] at position [i], where the inputs are [x], [f], [V], [SRF] *)
Definition calc_at (w : world) (o : nat) (kw : dict pyval) (i : list nat) (mono sg db : bool)
    (x : point) (f : string -> R) (V SRF : scat) (y1 y2 y3 : xr) : Prop :=
  let w' := fst (step w (OCalc o kw)) in
  exists a, tidy w (OCalc o kw) /\ snd (step w (OCalc o kw)) = RetArr a /\
    obs_flags w' o true sg db /\ obs_mode w' o mono /\ valid_idx (shp (row a 0)) i /\
    sample w' o i x f V SRF /\ ok_scat f V /\ ok_scat f SRF /\ (sg = true -> p_I0 x <> 0%R) /\
    y1 = get (row a 1) i /\ y2 = get (row a 2) i /\ y3 = get (row a 3) i.

Section Values.
  Context (w : world) (o : nat) (kw : dict pyval) (i : list nat) (mono sg db : bool)
    (x : point) (f : string -> R) (V SRF : scat) (y1 y2 y3 : xr).
  Hypothesis (H : calc_at w o kw i mono sg db x f V SRF y1 y2 y3).
  Let w' := fst (step w (OCalc o kw)).
  Lemma calc_at_returns : returns_interaction w (OCalc o kw) o i y3.
  Proof.
    destruct H as (a & T & E & Fl & M & Vi & S & _ & _ & _ & _ & _ & Y3). exists a. split; [exact E|]. right.
    split; [eexists; reflexivity|]. split; [exact Vi|]. split; [|exact Y3].
    destruct (eval_after w (OCalc o kw) o kw a eq_refl (tidy_good _ _ T) E) as (C & fe & Hc & Hp). cbn beta iota in Hp.
    destruct (conf_flags _ _ _ _ _ _ _ Hc Fl) as (F1 & _).
    destruct (p_calc_rows _ _ _ Hp) as (tau & b & isurf & i0 & mu0 & ivol & iint & _ & _ & _ & _ & _ & _ & _ & _ & _ & Sa & _).
    unfold nrows. rewrite Sa, last_last. unfold nrow. now rewrite F1.
  Qed.
  Lemma calc_at_direct : y1 = in_units db (surface_value x * unit_factor sg x) /\ y2 = in_units db (volume_value x * unit_factor sg x).
  Proof.
    destruct H as (a & T & E & Fl & M & Vi & S & _ & _ & I0 & Y1 & Y2 & _). destruct S as (P & _ & _ & _ & _ & _ & _ & _ & C0 & C1 & Tp).
    rewrite Y1, Y2. apply (C47_direct_contributions w o kw a true sg db i x (tidy_good _ _ T) E Fl Vi P); try tauto. lra.
  Qed.
  Lemma calc_at_phase : p_vol x = phase_value f V /\ p_brdf x = phase_value f SRF /\ f "theta_0" = p_t0 x /\ f "theta_ex" = p_tex x.
  Proof.
    pose proof H as (a & T & E & Fl & M & Vi & S & OV & OS & I0 & Y1 & Y2 & _). pose proof S as (P & NM & FV & FS & _ & _ & _ & _ & C0 & C1 & Tp).
    destruct (eval_after w (OCalc o kw) o kw a eq_refl (tidy_good _ _ T) E) as (C & fe & Hc & Hp). cbn beta iota in Hp. fold w' in Hc.
    assert (G' : good w' (OCalc o nil)) by (apply good_next; [now apply tidy_good|]; intros J; apply adm_nil).
    destruct (conf_flags _ _ _ _ _ _ _ Hc Fl) as (F1 & F2 & F3).
    destruct (row3 w' _ o C fe G' Hc i x P sg F2 I0 a Hp Vi F1 Tp) as (s & Es & _).
    pose proof Hc as (r & Hr & HC & Hfe).
    destruct (p_calc_rows _ _ _ Hp) as (tau & b & isurf & i0 & mu0 & ivol & iint & Et & Esf & _ & _ & _ & _ & _ & Hv & _).
    assert (Off : off C tau b = false).
    { unfold off. destruct b; [|reflexivity]. cbn [andb].
      pose proof (el_param w' _ o C fe G' Hc i x P _ _ (p_val_eval _ _ _ _ Et)) as Etau. cbn beta iota in Etau.
      assert (St : shp tau = nil) by (rewrite HC in Et; eapply p_eval_num; eassumption).
      unfold bget in Etau. rewrite St in Etau. replace (proj nil i) with (@nil nat) in Etau by (destruct i; reflexivity). rewrite Etau. simpl.
      destruct (Rlt_dec 0 (p_tau x)); [reflexivity|contradiction]. }
    rewrite Off in Hv.
    assert (SS : exists v, p_scat C WSRF = Ok v) by (apply p_surface_inv in Esf; decompose [ex and] Esf; eauto).
    assert (SV : exists v, p_scat C WV = Ok v) by (apply p_volume_inv in Hv; decompose [ex and] Hv; eauto).
    destruct SS as [vs SS]. destruct SV as [vv SV].
    apply (c_scat w' _ o C fe G' Hc) in SS, SV.
    pose proof (C48_documented_phase_functions w' _ o WSRF SRF vs i f G' SS FS NM OS) as B1.
    pose proof (C48_documented_phase_functions w' _ o WV V vv i f G' SV FV NM OV) as B2.
    pose proof P as (_ & _ & _ & _ & _ & _ & _ & PV & PS). rewrite (PV _ SV) in B2. rewrite (PS _ SS) in B1.
    injection B1 as B1. injection B2 as B2. split; [exact B2|]. split; [exact B1|].
    rewrite HC, Hfe in Es. destruct (reads w' _ o r i x f G' Hr NM P s Es) as (? & ? & ? & ? & _ & _ & _ & _ & _ & _ & _ & _ & E0 & E1). auto.
  Qed.
  Lemma calc_at_basic : Forall is_basic (members V) /\ Forall is_basic (members SRF).
  Proof.
    pose proof H as (a & T & E & Fl & M & Vi & S & OV & OS & I0 & _).
    destruct (call_value w (OCalc o kw) o i y3 x f V SRF true sg db T calc_at_returns Fl S I0) as (q & r & s & G' & Hr & FI & GI & N1 & N2 & EV & ES & Es & Hv).
    destruct S as (P & NM & _ & _ & UV & US & FL & _ & C0 & C1 & Tp).
    destruct (inter_val _ q o r i x f V SRF G' Hr FI GI N1 N2 EV ES UV US NM FL P C0 C1 Tp s Es) as (F1 & F2 & _ & B1 & B2 & _). auto.
  Qed.
  Lemma calc_at_pex : mono = true -> f "phi_ex" = (f "phi_0" + PI)%R.
  Proof.
    intros Mt. pose proof H as (a & T & E & Fl & (rm & Hm & M) & Vi & S & OV & OS & I0 & _).
    destruct (call_value w (OCalc o kw) o i y3 x f V SRF true sg db T calc_at_returns Fl S I0) as (q & r & s & G' & Hr & FI & GI & N1 & N2 & EV & ES & Es & Hv).
    destruct S as (P & NM & _ & _ & UV & US & FL & _ & C0 & C1 & Tp). fold w' in Hr, Es, G', Hm.
    rewrite Hr in Hm. injection Hm as <-. rewrite Mt in M.
    destruct (reads w' q o r i x f G' Hr NM P s Es) as (? & p0 & ? & pex & _ & R2 & _ & R4 & _ & E2 & _ & E4 & _).
    unfold p_read in R2, R4. change (c_mono (conf (w_heap w') r)) with (r_mono r) in R4. rewrite M, R2 in R4. cbn [rbind] in R4.
    unfold nadd in R4. pose proof (bget_map2 _ _ _ _ i R4) as Gt.
    rewrite E2, E4 in Gt. unfold num in Gt. rewrite bget_scalar in Gt. cbn [xadd] in Gt. congruence.
  Qed.
  Lemma calc_at_mono : mono = true -> exists F1 F2, y3 = in_units db (interaction_value x F1 F2 * unit_factor sg x) /\
    is_Fint (expansion_value f V) (expansion_value f SRF) (p_tau x) (p_t0 x) (f "phi_0") (p_tex x) (f "phi_ex") F1 /\
    is_Fint (expansion_value f V) (expansion_value f SRF) (p_tau x) (p_tex x) (f "phi_ex") (p_t0 x) (f "phi_0") F2.
  Proof.
    intros Mt. pose proof H as (a & T & E & Fl & M & Vi & S & OV & OS & I0 & _). rewrite Mt in M.
    exact (C30_monostatic_partial w (OCalc o kw) o i y3 true sg db x f V SRF T calc_at_returns Fl M S I0).
  Qed.
  Lemma calc_at_bi : mono = false -> (forall b, ~ obs_fixed w' o b) -> exists F1 F2, y3 = in_units db (interaction_value x F1 F2 * unit_factor sg x) /\
    is_Fint (expansion_value f V) (expansion_value f SRF) (p_tau x) (p_t0 x) (f "phi_0") (p_tex x) (f "phi_ex" + PI) F1 /\
    is_Fint (expansion_value f V) (expansion_value f SRF) (p_tau x) (p_tex x) (f "phi_ex") (p_t0 x) (f "phi_0" + PI) F2.
  Proof.
    intros Mt Nf. pose proof H as (a & T & E & Fl & M & Vi & S & OV & OS & I0 & _). rewrite Mt in M.
    destruct (C30_bistatic_value w (OCalc o kw) o i y3 true sg db x f V SRF T calc_at_returns Fl M S I0)
      as (F1 & F2 & t_in & p_in & t_out & p_out & Y & I1 & I2 & X1 & X2 & X3 & X4).
    rewrite (proj2 X1 (Nf T0)), (proj2 X2 (Nf P0)), (proj2 X3 (Nf TEx)), (proj2 X4 (Nf PEx)) in *.
    exists F1, F2. auto.
  Qed.
End Values.

(** the parameters of V and SRF have the same values *)
Definition same_params (f g : string -> R) (V SRF : scat) : Prop :=
  forall s, In s (scat_syms V) \/ In s (scat_syms SRF) -> f s = g s.
(** the same numbers except for the values of V and SRF (which are determined by the angles) *)
Definition same_layer (x y : point) : Prop :=
  p_tau x = p_tau y /\ p_omega x = p_omega y /\ p_norm x = p_norm y /\ p_bsfr x = p_bsfr y.
Definition same_numbers (x y : point) : Prop :=
  p_I0 x = p_I0 y /\ p_t0 x = p_t0 y /\ p_tex x = p_tex y /\ same_layer x y.

(** *** C20.  Reciprocity: exchanging the directions of incidence and exit in bistatic mode (no angle
    fixed) does not change intensity / (I0 cos(t_0)), for each contribution. *)
Theorem C20_reciprocity : forall w1 o1 kw1 i1 x1 f1 y1 y2 y3 w2 o2 kw2 i2 x2 f2 z1 z2 z3 V SRF,
  calc_at w1 o1 kw1 i1 false false false x1 f1 V SRF y1 y2 y3 ->
  calc_at w2 o2 kw2 i2 false false false x2 f2 V SRF z1 z2 z3 ->
  (forall b, ~ obs_fixed (fst (step w1 (OCalc o1 kw1))) o1 b) -> (forall b, ~ obs_fixed (fst (step w2 (OCalc o2 kw2))) o2 b) ->
  f2 "theta_0" = f1 "theta_ex" -> f2 "theta_ex" = f1 "theta_0" -> f2 "phi_0" = f1 "phi_ex" -> f2 "phi_ex" = f1 "phi_0" ->
  same_params f1 f2 V SRF -> same_layer x1 x2 -> p_I0 x1 <> 0%R -> p_I0 x2 <> 0%R ->
  exists u1 u2 u3 v1 v2 v3, y1 = Fin u1 /\ y2 = Fin u2 /\ y3 = Fin u3 /\ z1 = Fin v1 /\ z2 = Fin v2 /\ z3 = Fin v3 /\
    (u1 / (p_I0 x1 * cos (p_t0 x1)) = v1 / (p_I0 x2 * cos (p_t0 x2)))%R /\
    (u2 / (p_I0 x1 * cos (p_t0 x1)) = v2 / (p_I0 x2 * cos (p_t0 x2)))%R /\
    (u3 / (p_I0 x1 * cos (p_t0 x1)) = v3 / (p_I0 x2 * cos (p_t0 x2)))%R.
Proof.
  intros w1 o1 kw1 i1 x1 f1 y1 y2 y3 w2 o2 kw2 i2 x2 f2 z1 z2 z3 V SRF H1 H2 Nf1 Nf2 A1 A2 A3 A4 SP (L1 & L2 & L3 & L4) I1 I2.
  destruct (calc_at_direct _ _ _ _ _ _ _ _ _ _ _ _ _ _ H1) as [D1 D2]. destruct (calc_at_direct _ _ _ _ _ _ _ _ _ _ _ _ _ _ H2) as [E1 E2].
  destruct (calc_at_phase _ _ _ _ _ _ _ _ _ _ _ _ _ _ H1) as (P1 & P2 & P3 & P4). destruct (calc_at_phase _ _ _ _ _ _ _ _ _ _ _ _ _ _ H2) as (Q1 & Q2 & Q3 & Q4).
  destruct (calc_at_bi _ _ _ _ _ _ _ _ _ _ _ _ _ _ H1 eq_refl Nf1) as (F1 & F2 & D3 & J1 & J2).
  destruct (calc_at_bi _ _ _ _ _ _ _ _ _ _ _ _ _ _ H2 eq_refl Nf2) as (G1 & G2 & E3 & K1 & K2).
  destruct (calc_at_basic _ _ _ _ _ _ _ _ _ _ _ _ _ _ H1) as [BV BS].
  assert (T1 : p_t0 x2 = p_tex x1) by congruence. assert (T2 : p_tex x2 = p_t0 x1) by congruence.
  assert (EV : forall a b c d, expansion_value f2 V a b c d = expansion_value f1 V a b c d).
  { intros. apply expansion_value_ext; [assumption|]. intros s Hs. symmetry. apply SP. auto. }
  assert (ES : forall a b c d, expansion_value f2 SRF a b c d = expansion_value f1 SRF a b c d).
  { intros. apply expansion_value_ext; [assumption|]. intros s Hs. symmetry. apply SP. auto. }
  assert (PH : forall s, (forall y, In y (scat_syms s) -> f1 y = f2 y) -> (forall b, In b (all_a s) -> ev_a f1 b = ev_a f2 b) -> phase_value f1 s = phase_value f2 s).
  { intros s Hs Ha. apply phase_ext; [assumption|]. intros b Hb. unfold ang_of. rewrite (Ha b Hb), A1, A2, A3, A4. apply swap_angle. }
  assert (AA : forall s b y, Forall is_basic (members s) -> In b (all_a s) -> In y (a_syms b) -> In y (scat_syms s)).
  { intros s b y Bs Hb Hy. destruct s; cbn [all_a scat_a members] in *; try (destruct Hb as [<-|[]]; cbn [scat_syms]; rewrite ?in_app_iff; auto).
    apply in_flat_map in Hb. destruct Hb as (c & Hc & Hb). cbn [scat_syms]. apply in_flat_map. exists c. split; [assumption|]. apply in_or_app. right.
    rewrite Forall_forall in Bs. assert (Bc : is_basic (snd c)) by (apply Bs; now apply in_map). rewrite (basic_all_a _ Bc) in Hb. destruct Hb as [<-|[]]. now apply (scat_a_syms _ Bc). }
  assert (Vq : p_vol x2 = p_vol x1).
  { rewrite P1, Q1. symmetry. apply PH; [intros y Hy; apply SP; auto|]. intros b Hb. apply ev_a_ext. intros y Hy. apply SP. left. eapply AA; eassumption. }
  assert (Sq : p_brdf x2 = p_brdf x1).
  { rewrite P2, Q2. symmetry. apply PH; [intros y Hy; apply SP; auto|]. intros b Hb. apply ev_a_ext. intros y Hy. apply SP. right. eapply AA; eassumption. }
  unfold is_Fint in *.
  assert (GF1 : G1 = F2).
  { rewrite T1, <- L1, A3, A4 in K1. rewrite T2 in K1. eapply is_F_same; [| |exact K1|exact J2]; intros th ph; cbv beta; [apply EV|apply ES]. }
  assert (GF2 : G2 = F1).
  { rewrite T1, T2, <- L1, A3, A4 in K2. eapply is_F_same; [| |exact K2|exact J1]; intros th ph; cbv beta; [apply EV|apply ES]. }
  destruct H1 as (a & _ & _ & _ & _ & _ & S & _). destruct S as (_ & _ & _ & _ & _ & _ & _ & _ & C0 & C1 & Tp).
  rewrite D1, D2, D3, E1, E2, E3, GF1, GF2. unfold in_units.
  eexists _, _, _, _, _, _. do 6 (split; [reflexivity|]). unfold unit_factor, surface_value, volume_value, interaction_value, attenuation.
  rewrite T1, T2, Vq, Sq, <- L1, <- L2, <- L3, <- L4.
  rewrite (Rplus_comm (p_tau x1 / cos (p_tex x1)) (p_tau x1 / cos (p_t0 x1))).
  assert (C0' : cos (p_t0 x1) <> 0%R) by lra. assert (C1' : cos (p_tex x1) <> 0%R) by lra. assert (C2' : (cos (p_t0 x1) + cos (p_tex x1))%R <> 0%R) by lra.
  split; [|split]; field; repeat split; auto; rewrite Rplus_comm; auto.
Qed.
Print Assumptions C20_reciprocity.

(** equal inputs have equal values of V and SRF *)
Lemma phase_same f g s : (forall y, In y (scat_syms s) -> f y = g y) -> Forall is_basic (members s) ->
  (forall b, In b (all_a s) -> ang_of f b = cos_angle (ev_a f b) (g "theta_0") (g "theta_ex") (g "phi_0") (g "phi_ex")) ->
  phase_value f s = phase_value g s.
Proof.
  intros Hs B Ha. apply phase_ext; [assumption|]. intros b Hb. rewrite (Ha b Hb). unfold ang_of. f_equal. apply ev_a_ext. intros y Hy. apply Hs.
  destruct s; cbn [all_a scat_a members] in *; try (destruct Hb as [<-|[]]; cbn [scat_syms]; rewrite ?in_app_iff; auto).
  apply in_flat_map in Hb. destruct Hb as (c & Hc & Hb). cbn [scat_syms]. apply in_flat_map. exists c. split; [assumption|]. apply in_or_app. right.
  rewrite Forall_forall in B. assert (Bc : is_basic (snd c)) by (apply B; now apply in_map). rewrite (basic_all_a _ Bc) in Hb. destruct Hb as [<-|[]]. now apply (scat_a_syms _ Bc).
Qed.
Lemma direct_same x y sg : same_numbers x y -> p_vol x = p_vol y -> p_brdf x = p_brdf y ->
  surface_value x = surface_value y /\ volume_value x = volume_value y /\ unit_factor sg x = unit_factor sg y /\
  forall F1 F2, interaction_value x F1 F2 = interaction_value y F1 F2.
Proof.
  intros (H1 & H2 & H3 & H4 & H5 & H6 & H7) H8 H9. unfold surface_value, volume_value, attenuation, unit_factor, interaction_value.
  rewrite H1, H2, H3, H4, H5, H6, H7, H8, H9. auto.
Qed.

(** *** C31.  Monostatic mode and bistatic mode at the same angles.
    The surface and volume contributions agree. *)
Theorem C31_direct_partial : forall w1 o1 kw1 i1 m1 x1 f1 y1 y2 y3 w2 o2 kw2 i2 m2 x2 f2 z1 z2 z3 sg db V SRF,
  calc_at w1 o1 kw1 i1 m1 sg db x1 f1 V SRF y1 y2 y3 ->
  calc_at w2 o2 kw2 i2 m2 sg db x2 f2 V SRF z1 z2 z3 ->
  (forall s, In s ("theta_0" :: "theta_ex" :: "phi_0" :: "phi_ex" :: nil) -> f1 s = f2 s) ->
  same_params f1 f2 V SRF -> same_numbers x1 x2 ->
  y1 = z1 /\ y2 = z2.
Proof.
  intros w1 o1 kw1 i1 m1 x1 f1 y1 y2 y3 w2 o2 kw2 i2 m2 x2 f2 z1 z2 z3 sg db V SRF H1 H2 An SP SN.
  destruct (calc_at_direct _ _ _ _ _ _ _ _ _ _ _ _ _ _ H1) as [D1 D2]. destruct (calc_at_direct _ _ _ _ _ _ _ _ _ _ _ _ _ _ H2) as [E1 E2].
  destruct (calc_at_phase _ _ _ _ _ _ _ _ _ _ _ _ _ _ H1) as (P1 & P2 & P3 & P4). destruct (calc_at_phase _ _ _ _ _ _ _ _ _ _ _ _ _ _ H2) as (Q1 & Q2 & Q3 & Q4).
  destruct (calc_at_basic _ _ _ _ _ _ _ _ _ _ _ _ _ _ H1) as [BV BS].
  assert (N : forall s, ang_of f1 s = cos_angle (ev_a f1 s) (f2 "theta_0") (f2 "theta_ex") (f2 "phi_0") (f2 "phi_ex")).
  { intros b. unfold ang_of. rewrite !An by (simpl; auto). reflexivity. }
  assert (Vq : p_vol x1 = p_vol x2) by (rewrite P1, Q1; apply phase_same; [intros y Hy; apply SP; auto|assumption|auto]).
  assert (Sq : p_brdf x1 = p_brdf x2) by (rewrite P2, Q2; apply phase_same; [intros y Hy; apply SP; auto|assumption|auto]).
  destruct (direct_same x1 x2 sg SN Vq Sq) as (X1 & X2 & X3 & _). rewrite D1, D2, E1, E2, X1, X2, X3. auto.
Qed.
Print Assumptions C31_direct_partial.

(** the interaction contribution of monostatic mode is the one of bistatic mode with the exit azimuth
    p_ex = p_0, i.e. turned by pi from the direction p_ex = p_0 + pi that monostatic mode stands for *)
Theorem C31_interaction_partial : forall w1 o1 kw1 i1 x1 f1 y1 y2 y3 w2 o2 kw2 i2 x2 f2 z1 z2 z3 sg db V SRF,
  calc_at w1 o1 kw1 i1 true sg db x1 f1 V SRF y1 y2 y3 ->
  calc_at w2 o2 kw2 i2 false sg db x2 f2 V SRF z1 z2 z3 ->
  (forall b, ~ obs_fixed (fst (step w2 (OCalc o2 kw2))) o2 b) ->
  f2 "phi_0" = f1 "phi_0" -> f2 "phi_ex" = f1 "phi_0" ->
  same_params f1 f2 V SRF -> same_numbers x1 x2 ->
  y3 = z3.
Proof.
  intros w1 o1 kw1 i1 x1 f1 y1 y2 y3 w2 o2 kw2 i2 x2 f2 z1 z2 z3 sg db V SRF H1 H2 Nf A1 A2 SP SN.
  pose proof (calc_at_pex _ _ _ _ _ _ _ _ _ _ _ _ _ _ H1 eq_refl) as A3.
  destruct (calc_at_mono _ _ _ _ _ _ _ _ _ _ _ _ _ _ H1 eq_refl) as (F1 & F2 & D3 & J1 & J2).
  destruct (calc_at_bi _ _ _ _ _ _ _ _ _ _ _ _ _ _ H2 eq_refl Nf) as (G1 & G2 & E3 & K1 & K2).
  destruct (calc_at_basic _ _ _ _ _ _ _ _ _ _ _ _ _ _ H1) as [BV BS].
  assert (EV : forall a b c d, expansion_value f2 V a b c d = expansion_value f1 V a b c d).
  { intros. apply expansion_value_ext; [assumption|]. intros s Hs. symmetry. apply SP. auto. }
  assert (ES : forall a b c d, expansion_value f2 SRF a b c d = expansion_value f1 SRF a b c d).
  { intros. apply expansion_value_ext; [assumption|]. intros s Hs. symmetry. apply SP. auto. }
  pose proof SN as (S1 & S2 & S3 & S4 & S5 & S6 & S7). rewrite A1, A2, <- S2, <- S3, <- S4 in K1, K2. unfold is_Fint in *.
  assert (E1 : F1 = G1).
  { eapply is_F_same; [| |exact J1|exact K1]; intros th ph; cbv beta; [now rewrite EV|rewrite ES, A3; reflexivity]. }
  assert (E2 : F2 = G2).
  { eapply is_F_unique; [exact J2|]. eapply is_F_az; [|exact K2]. intros th I HI. cbv beta in HI |- *.
    set (h := fun u => (expansion_value f2 V (PI - p_tex x1) th (f1 "phi_0") u * expansion_value f2 SRF th (p_t0 x1) u (f1 "phi_0" + PI))%R) in *.
    apply (is_ext (fun ph => h (ph + PI)%R)).
    - intros ph. unfold h. rewrite EV, ES, A3. f_equal; apply expansion_dirs; rewrite ?(neg_cos ph), ?(neg_cos (f1 "phi_0")), ?(neg_sin ph), ?(neg_sin (f1 "phi_0")); ring.
    - apply (is_shift h); [|exact HI]. intros u. unfold h. f_equal; apply expansion_dirs; rewrite ?(cos_2 u), ?(sin_2 u); reflexivity. }
  rewrite D3, E3, <- E1, <- E2. f_equal. unfold interaction_value, unit_factor. rewrite S1, S2, S3, S4, S5, S6, S7. reflexivity.
Qed.
Print Assumptions C31_interaction_partial.

(** *** C32.  Fixing an angle.  In monostatic mode, and for the direct contributions in both modes, the
    results do not depend on which angles are fixed ([obs_fixed] does not occur in the hypotheses). *)
Theorem C32_monostatic_partial : forall w1 o1 kw1 i1 x1 f1 y1 y2 y3 w2 o2 kw2 i2 x2 f2 z1 z2 z3 sg db V SRF,
  calc_at w1 o1 kw1 i1 true sg db x1 f1 V SRF y1 y2 y3 ->
  calc_at w2 o2 kw2 i2 true sg db x2 f2 V SRF z1 z2 z3 ->
  (forall s, In s ("theta_0" :: "theta_ex" :: "phi_0" :: "phi_ex" :: nil) -> f1 s = f2 s) ->
  same_params f1 f2 V SRF -> same_numbers x1 x2 ->
  y1 = z1 /\ y2 = z2 /\ y3 = z3.
Proof.
  intros w1 o1 kw1 i1 x1 f1 y1 y2 y3 w2 o2 kw2 i2 x2 f2 z1 z2 z3 sg db V SRF H1 H2 An SP SN.
  destruct (C31_direct_partial _ _ _ _ _ _ _ _ _ _ _ _ _ _ _ _ _ _ _ _ _ _ _ _ H1 H2 An SP SN) as [R1 R2]. split; [exact R1|]. split; [exact R2|].
  destruct (calc_at_mono _ _ _ _ _ _ _ _ _ _ _ _ _ _ H1 eq_refl) as (F1 & F2 & D3 & J1 & J2).
  destruct (calc_at_mono _ _ _ _ _ _ _ _ _ _ _ _ _ _ H2 eq_refl) as (G1 & G2 & E3 & K1 & K2).
  destruct (calc_at_basic _ _ _ _ _ _ _ _ _ _ _ _ _ _ H1) as [BV BS].
  assert (EV : forall a b c d, expansion_value f2 V a b c d = expansion_value f1 V a b c d).
  { intros. apply expansion_value_ext; [assumption|]. intros s Hs. symmetry. apply SP. auto. }
  assert (ES : forall a b c d, expansion_value f2 SRF a b c d = expansion_value f1 SRF a b c d).
  { intros. apply expansion_value_ext; [assumption|]. intros s Hs. symmetry. apply SP. auto. }
  pose proof SN as (S1 & S2 & S3 & S4 & S5 & S6 & S7). rewrite <- !An, <- S2, <- S3, <- S4 in K1, K2 by (simpl; auto). unfold is_Fint in *.
  assert (E1 : F1 = G1) by (eapply is_F_same; [| |exact J1|exact K1]; intros th ph; cbv beta; [now rewrite EV|now rewrite ES]).
  assert (E2 : F2 = G2) by (eapply is_F_same; [| |exact J2|exact K2]; intros th ph; cbv beta; [now rewrite EV|now rewrite ES]).
  rewrite D3, E3, <- E1, <- E2. f_equal. unfold interaction_value, unit_factor. rewrite S1, S2, S3, S4, S5, S6, S7. reflexivity.
Qed.
Print Assumptions C32_monostatic_partial.

(** *** C33.  p_0 is irrelevant in monostatic mode if a[1] == a[2]. *)
Theorem C33_p0_irrelevant : forall w1 o1 kw1 i1 x1 f1 y1 y2 y3 w2 o2 kw2 i2 x2 f2 z1 z2 z3 sg db V SRF,
  calc_at w1 o1 kw1 i1 true sg db x1 f1 V SRF y1 y2 y3 ->
  calc_at w2 o2 kw2 i2 true sg db x2 f2 V SRF z1 z2 z3 ->
  az_sym f1 V -> az_sym f1 SRF ->
  same_params f1 f2 V SRF -> same_numbers x1 x2 ->
  y1 = z1 /\ y2 = z2 /\ y3 = z3.
Proof.
  intros w1 o1 kw1 i1 x1 f1 y1 y2 y3 w2 o2 kw2 i2 x2 f2 z1 z2 z3 sg db V SRF H1 H2 ZV ZS SP SN.
  pose proof (calc_at_pex _ _ _ _ _ _ _ _ _ _ _ _ _ _ H1 eq_refl) as A1. pose proof (calc_at_pex _ _ _ _ _ _ _ _ _ _ _ _ _ _ H2 eq_refl) as A2.
  destruct (calc_at_direct _ _ _ _ _ _ _ _ _ _ _ _ _ _ H1) as [D1 D2]. destruct (calc_at_direct _ _ _ _ _ _ _ _ _ _ _ _ _ _ H2) as [E1 E2].
  destruct (calc_at_phase _ _ _ _ _ _ _ _ _ _ _ _ _ _ H1) as (P1 & P2 & P3 & P4). destruct (calc_at_phase _ _ _ _ _ _ _ _ _ _ _ _ _ _ H2) as (Q1 & Q2 & Q3 & Q4).
  destruct (calc_at_basic _ _ _ _ _ _ _ _ _ _ _ _ _ _ H1) as [BV BS].
  destruct (calc_at_mono _ _ _ _ _ _ _ _ _ _ _ _ _ _ H1 eq_refl) as (F1 & F2 & D3 & J1 & J2).
  destruct (calc_at_mono _ _ _ _ _ _ _ _ _ _ _ _ _ _ H2 eq_refl) as (G1 & G2 & E3 & K1 & K2).
  pose proof SN as (S1 & S2 & S3 & S4 & S5 & S6 & S7).
  assert (T1 : f2 "theta_0" = f1 "theta_0") by congruence. assert (T2 : f2 "theta_ex" = f1 "theta_ex") by congruence.
  set (c := (f2 "phi_0" - f1 "phi_0")%R).
  assert (C1 : f2 "phi_0" = (f1 "phi_0" + c)%R) by (unfold c; ring). assert (C2 : f2 "phi_ex" = (f1 "phi_ex" + c)%R) by (rewrite A2, A1; unfold c; ring).
  assert (N : forall s b, az_sym f1 s -> In b (all_a s) -> ang_of f1 b = cos_angle (ev_a f1 b) (f2 "theta_0") (f2 "theta_ex") (f2 "phi_0") (f2 "phi_ex")).
  { intros s b Z Hb. unfold ang_of. rewrite T1, T2, C1, C2. symmetry. apply az_angle. now apply Z. }
  assert (Vq : p_vol x1 = p_vol x2) by (rewrite P1, Q1; apply phase_same; [intros y Hy; apply SP; auto|assumption|intros b Hb; now apply (N V)]).
  assert (Sq : p_brdf x1 = p_brdf x2) by (rewrite P2, Q2; apply phase_same; [intros y Hy; apply SP; auto|assumption|intros b Hb; now apply (N SRF)]).
  destruct (direct_same x1 x2 sg SN Vq Sq) as (X1 & X2 & X3 & X4).
  assert (EV : forall a b c d, expansion_value f2 V a b c d = expansion_value f1 V a b c d).
  { intros. apply expansion_value_ext; [assumption|]. intros s Hs. symmetry. apply SP. auto. }
  assert (ES : forall a b c d, expansion_value f2 SRF a b c d = expansion_value f1 SRF a b c d).
  { intros. apply expansion_value_ext; [assumption|]. intros s Hs. symmetry. apply SP. auto. }
  apply (is_Fint_rotate f1 V SRF _ _ _ _ _ c) in J1, J2; try assumption.
  rewrite <- C1, <- C2 in J1, J2. rewrite S2, S3, S4 in J1, J2. unfold is_Fint in *.
  assert (Q1' : F1 = G1) by (eapply is_F_same; [| |exact J1|exact K1]; intros th ph; cbv beta; [now rewrite EV|now rewrite ES]).
  assert (Q2' : F2 = G2) by (eapply is_F_same; [| |exact J2|exact K2]; intros th ph; cbv beta; [now rewrite EV|now rewrite ES]).
  rewrite D1, D2, D3, E1, E2, E3, X1, X2, X3, X4, Q1', Q2'. auto.
Qed.
Print Assumptions C33_p0_irrelevant.
