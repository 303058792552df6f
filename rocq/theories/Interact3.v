(** The interaction contribution in the two measurement geometries. *)
From Coquelicot Require Import Coquelicot.
From Verif Require Import ExpInt AzInt LegFacts.
From Coq Require Import Lia List.
From Verif Require Import SpecExp SpecInt.
From Verif Require Export Interact2.
Open Scope string_scope.
Open Scope list_scope.
Open Scope R_scope.

Lemma is_F_az mu0 tau p b p' b' F :
  (forall th I, is_RInt (fun ph => p th ph * b th ph) 0 (2 * PI) I -> is_RInt (fun ph => p' th ph * b' th ph) 0 (2 * PI) I) ->
  is_F mu0 tau p b F -> is_F mu0 tau p' b' F.
Proof.
  intros H [E I]. split.
  - intros th. destruct (E th) as [J HJ]. exists J. now apply H.
  - eapply is_ext; [|exact I]. intros mu. cbv beta. f_equal.
    destruct (E (acos mu)) as [J HJ]. rewrite (is_RInt_unique _ _ _ _ HJ). symmetry. apply is_RInt_unique. now apply H.
Qed.
Lemma is_F_ext mu0 tau p b p' b' F : (forall th ph, p th ph = p' th ph) -> (forall th ph, b th ph = b' th ph) ->
  is_F mu0 tau p b F -> is_F mu0 tau p' b' F.
Proof. intros A B. apply is_F_az. intros th I. apply is_ext. intros ph. now rewrite A, B. Qed.
(** rotating the intermediate direction by pi *)
Lemma is_shift (h : R -> R) I : (forall x, h (x + 2 * PI) = h x) -> is_RInt h 0 (2 * PI) I -> is_RInt (fun x => h (x + PI)) 0 (2 * PI) I.
Proof.
  intros P H. pose proof PI_RGT_0 as HP.
  assert (E : ex_RInt h 0 (2 * PI)) by (eexists; exact H).
  assert (E1 : ex_RInt h 0 PI) by (apply (ex_RInt_Chasles_1 h 0 PI (2 * PI)); [lra|exact E]).
  assert (E2 : ex_RInt h PI (2 * PI)) by (apply (ex_RInt_Chasles_2 h 0 PI (2 * PI)); [lra|exact E]).
  destruct E1 as [A HA], E2 as [B HB].
  assert (X1 : is_RInt (fun x => h (x + PI)) 0 PI B).
  { apply (is_ext (fun y => scal 1 (h (1 * y + PI)))); [intros y; unfold scal; simpl; unfold mult; simpl; rewrite !Rmult_1_l; reflexivity|].
    apply (is_RInt_comp_lin h 1 PI 0 PI). replace (1 * 0 + PI) with PI by ring. replace (1 * PI + PI) with (2 * PI) by ring. exact HB. }
  assert (X2 : is_RInt (fun x => h (x + PI)) PI (2 * PI) A).
  { apply (is_ext (fun y => scal 1 (h (1 * y + - PI)))).
    { intros y. unfold scal; simpl; unfold mult; simpl. rewrite !Rmult_1_l. rewrite <- (P (y + - PI)). f_equal. ring. }
    apply (is_RInt_comp_lin h 1 (- PI) PI (2 * PI)). replace (1 * PI + - PI) with 0 by ring. replace (1 * (2 * PI) + - PI) with PI by ring. exact HA. }
  pose proof (is_RInt_Chasles h 0 PI (2 * PI) A B HA HB) as S. pose proof (is_RInt_unique _ _ _ _ S) as U1. rewrite (is_RInt_unique _ _ _ _ H) in U1.
  pose proof (is_RInt_Chasles _ 0 PI (2 * PI) B A X1 X2) as S2. eapply is_val; [exact S2|]. rewrite U1. unfold plus. simpl. ring.
Qed.

(** the expansions are functions of the two directions *)
Lemma cos_angle_dirs a t0 tex p0 pex p0' pex' : cos p0 * cos pex = cos p0' * cos pex' -> sin p0 * sin pex = sin p0' * sin pex' ->
  cos_angle a t0 tex p0 pex = cos_angle a t0 tex p0' pex'.
Proof.
  intros H1 H2. unfold cos_angle.
  replace (ga1 a * cos p0 * cos pex) with (ga1 a * (cos p0 * cos pex)) by ring. replace (ga2 a * sin p0 * sin pex) with (ga2 a * (sin p0 * sin pex)) by ring.
  rewrite H1, H2. ring.
Qed.
Lemma expansion_dirs f s t0 tex p0 pex p0' pex' : cos p0 * cos pex = cos p0' * cos pex' -> sin p0 * sin pex = sin p0' * sin pex' ->
  expansion_value f s t0 tex p0 pex = expansion_value f s t0 tex p0' pex'.
Proof.
  intros H1 H2. destruct s; cbn [expansion_value]; try (f_equal; now apply cos_angle_dirs).
  apply wsum_ext. intros c _. f_equal. f_equal. now apply cos_angle_dirs.
Qed.
Lemma sin_2 x : sin (x + 2 * PI) = sin x. Proof. rewrite sin_plus, sin_2PI, cos_2PI. ring. Qed.
Lemma cos_2 x : cos (x + 2 * PI) = cos x. Proof. rewrite cos_plus, sin_2PI, cos_2PI. ring. Qed.

Section Geometries.
  Context (w : world) (q : op) (o : nat) (r : rt1) (i : list nat) (x : point) (f : string -> R) (V SRF : scat).
  Hypothesis (G : good w q) (Hr : obj (w_heap w) o = Ok r) (FI : Finv (w_heap w)) (GI : geom_ok r).
  Hypothesis (N1 : r_fn_input r = None) (N2 : r_fnevals_input r = None).
  Hypothesis (EV : scat_at (w_heap w) (r_V r) = Ok V) (ES : scat_at (w_heap w) (r_SRF r) = Ok SRF).
  Hypothesis (UV : usable f V) (US : usable f SRF) (NM : named w o i f) (FL : flat w o).
  Hypothesis (P : at_point w o i x) (H0 : 0 < cos (p_t0 x) < 1) (H1 : 0 < cos (p_tex x) < 1) (Ht : 0 < p_tau x).
  Notation C := (conf (w_heap w) r).
  Notation fe := (fnev_next (w_heap w) r).
  Notation g := (r_geom r).
  Notation Ve := (expansion_value f V).
  Notation Se := (expansion_value f SRF).
  Context (s : nd xr) (Hs : p_interaction C fe = Ok s).

  Lemma reads : exists t0 p0 tex pex, p_read C T0 = Ok t0 /\ p_read C P0 = Ok p0 /\ p_read C TEx = Ok tex /\ p_read C PEx = Ok pex /\
    bget t0 i = Fin (f "theta_0") /\ bget p0 i = Fin (f "phi_0") /\ bget tex i = Fin (f "theta_ex") /\ bget pex i = Fin (f "phi_ex") /\
    f "theta_0" = p_t0 x /\ f "theta_ex" = p_tex x.
  Proof.
    destruct (p_interaction_inv _ _ _ Hs) as (j0 & m0 & e0 & t & o0 & n0 & bb0 & f1 & f2 & _ & K & _).
    unfold p_Fint in K. destruct (p_read C T0) as [t0|] eqn:R1; [cbn [rbind] in K|discriminate].
    destruct (p_read C P0) as [p0|] eqn:R2; [cbn [rbind] in K|discriminate]. destruct (p_read C TEx) as [tex|] eqn:R3; [cbn [rbind] in K|discriminate].
    destruct (p_read C PEx) as [pex|] eqn:R4; [cbn [rbind] in K|discriminate]. exists t0, p0, tex, pex.
    pose proof (hc w o r Hr) as Hc. destruct NM as (M1 & M2 & M3 & M4 & _). destruct P as (_ & P1 & P2 & _).
    assert (A1 := proj2 (c_angle w q o _ _ G Hc T0 t0) R1). assert (A2 := proj2 (c_angle w q o _ _ G Hc P0 p0) R2).
    assert (A3 := proj2 (c_angle w q o _ _ G Hc TEx tex) R3). assert (A4 := proj2 (c_angle w q o _ _ G Hc PEx pex) R4).
    repeat (split; [first [reflexivity|now auto]|]).
    specialize (M1 _ A1). specialize (M2 _ A3). rewrite (P1 _ A1) in M1. rewrite (P2 _ A3) in M2. split; congruence.
  Qed.
  Lemma inter_val : exists F1 F2, bget s i = Fin (interaction_value x F1 F2) /\
    Forall is_basic (members V) /\ Forall is_basic (members SRF) /\
    is_F (cos (p_t0 x)) (p_tau x) (vol_exp V g f) (brdf_exp SRF g f) F1 /\
    is_F (cos (p_tex x)) (p_tau x) (vol_exp V g (swapped f)) (brdf_exp SRF g (swapped f)) F2.
  Proof.
    destruct reads as (t0 & p0 & tex & pex & _ & _ & _ & _ & _ & _ & _ & _ & E0 & E1).
    pose proof (hc w o r Hr) as Hc.
    destruct (p_interaction_inv _ _ _ Hs) as (j0 & m0 & e0 & t & o0 & n0 & bb0 & f1 & f2 & (I1 & I2 & I3 & I4) & K1 & K2 & I7 & I8 & I9 & K0).
    assert (Et : forall t, p_val C Tau = Ok t -> bget t i = Fin (p_tau x)) by (intros u Hu; exact (el_param w q o C fe G Hc i x P Tau u Hu)).
    destruct (Fint_el w q o r i f V SRF G Hr FI GI N1 N2 EV ES UV US NM FL true f1 (p_tau x) K1) as (F1 & B1 & BV & BS & A1); try assumption.
    { cbn [look]. now rewrite E0. }
    destruct (Fint_el w q o r i f V SRF G Hr FI GI N1 N2 EV ES UV US NM FL false f2 (p_tau x) K2) as (F2 & B2 & _ & _ & A2); try assumption.
    { change (look f false "theta_0") with (f "theta_ex"). now rewrite E1. }
    change (look f false "theta_0") with (f "theta_ex") in A2. cbn [look] in A1, A2. rewrite E0 in A1. rewrite E1 in A2.
    exists F1, F2. split; [|auto].
    rewrite (k_interaction_el _ _ _ _ _ _ _ _ _ _ _ K0), (el_I0 w o C fe Hc i x P _ I1), (el_mu0 w q o C fe G Hc i x P _ I2),
      (el_muex w q o C fe G Hc i x P _ I3), (Et _ I4), (el_param w q o C fe G Hc i x P _ _ I7), (el_param w q o C fe G Hc i x P _ _ I8),
      (el_param w q o C fe G Hc i x P _ _ I9), B1, B2.
    unfold x_interaction. cbn [xopp]. rewrite !xdiv_Fin by lra. cbn [xexp xmul xadd xsub xopp]. f_equal.
  Qed.
  Lemma sw th s' : usable f s' -> Forall is_basic (members s') -> forall a b c, expansion_value (swapped f) s' a th b c = expansion_value f s' a th b c.
  Proof. intros U B a b c. now apply exp_ext_swap. Qed.
  (** monostatic: the documented formula *)
  Lemma inter_mono : r_mono r = true -> exists F1 F2, bget s i = Fin (interaction_value x F1 F2) /\
    is_Fint Ve Se (p_tau x) (p_t0 x) (f "phi_0") (p_tex x) (f "phi_ex") F1 /\
    is_Fint Ve Se (p_tau x) (p_tex x) (f "phi_ex") (p_t0 x) (f "phi_0") F2.
  Proof.
    intros M. destruct inter_val as (F1 & F2 & E & BV & BS & I1 & I2). exists F1, F2. split; [exact E|].
    destruct reads as (t0 & p0 & tex & pex & R1 & R2 & R3 & R4 & V1 & V2 & V3 & V4 & E0 & E1).
    unfold geom_ok in GI. rewrite M in GI. destruct GI as (e & Eg & Sl).
    unfold p_read in R1, R2, R3, R4. cbn [conf c_mono] in R3, R4. rewrite M in R3, R4.
    assert (St : p_stored C P0 = Ok p0) by exact R2.
    destruct (slot_val (w_heap w) r P0 e p0 i f Sl St V2) as [S1 S2]. cbn [ang_name] in S1, S2.
    assert (Tq : f "theta_0" = f "theta_ex") by (rewrite R1 in R3; inversion R3; subst; rewrite V1 in V3; now inversion V3).
    assert (Pq : f "phi_0" + PI = f "phi_ex").
    { rewrite R2 in R4. cbn [rbind] in R4. unfold nadd in R4. rewrite (bget_map2 _ _ _ _ i R4), V2 in V4. unfold num in V4. rewrite bget_scalar in V4. cbn [xadd] in V4. now inversion V4. }
    unfold vol_exp, brdf_exp in I1, I2. rewrite Eg in I1, I2. cbn [g_t0 g_tex g_p0 g_pex] in I1, I2.
    change (evalR f (ang_sym T0)) with (f "theta_0") in I1. change (evalR (swapped f) (ang_sym T0)) with (f "theta_ex") in I2.
    rewrite S1, Pq in I1. split.
    - unfold is_Fint. rewrite <- E0, <- E1. rewrite <- E0 in I1. eapply is_F_ext; [| |exact I1]; intros th ph; [reflexivity|now rewrite Tq].
    - unfold is_Fint. rewrite <- E0, <- E1. rewrite <- E1 in I2. destruct S2 as [[S2 _]|[S2 _]]; rewrite S2 in I2.
      + change (swapped f "phi_0") with (f "phi_ex") in I2. eapply is_F_ext; [| |exact I2]; intros th ph.
        * now apply exp_ext_swap.
        * cbv beta. rewrite exp_ext_swap by assumption. rewrite Tq, <- Pq. replace (f "phi_0" + PI + PI) with (f "phi_0" + 2 * PI) by ring. apply expansion_dirs; [rewrite (cos_2 (f "phi_0"))|rewrite (sin_2 (f "phi_0"))]; reflexivity.
      + eapply is_F_az; [|exact I2]. intros th I H. cbv beta in H |- *.
        set (h := fun u => expansion_value (swapped f) V (PI - f "theta_ex") th (f "phi_0") u * expansion_value (swapped f) SRF th (f "theta_ex") u (f "phi_0" + PI)) in *.
        apply (is_ext (fun ph => h (ph + PI))).
        * intros ph. unfold h. rewrite !exp_ext_swap by assumption. rewrite <- Tq, <- Pq. f_equal; apply expansion_dirs; rewrite ?(neg_cos ph), ?(neg_cos (f "phi_0")), ?(neg_sin ph), ?(neg_sin (f "phi_0")); ring.
        * apply (is_shift h); [|exact H]. intros u. unfold h. f_equal; apply expansion_dirs; rewrite ?(cos_2 u), ?(sin_2 u); reflexivity.
  Qed.
  (** bistatic: the azimuth of the exit direction is shifted by pi; fixed angles are not exchanged *)
  Lemma inter_bi : r_mono r = false -> exists F1 F2 (sl : angle -> R), bget s i = Fin (interaction_value x F1 F2) /\
    (forall a, sl a = swapped f (ang_name a) /\ ~ is_fixed r a \/ sl a = f (ang_name a) /\ is_fixed r a) /\
    is_Fint Ve Se (p_tau x) (p_t0 x) (f "phi_0") (p_tex x) (f "phi_ex" + PI) F1 /\
    is_F (cos (p_tex x)) (p_tau x) (fun th ph => Ve (PI - sl T0) th (sl P0) ph) (fun th ph => Se th (sl TEx) ph (sl PEx + PI)) F2.
  Proof.
    intros M. destruct inter_val as (F1 & F2 & E & BV & BS & I1 & I2).
    destruct reads as (t0 & p0 & tex & pex & R1 & R2 & R3 & R4 & V1 & V2 & V3 & V4 & E0 & E1).
    unfold geom_ok in GI. rewrite M in GI. destruct GI as (S0 & S1 & S2 & S3).
    unfold p_read in R1, R2, R3, R4. cbn [conf c_mono] in R3, R4. rewrite M in R3, R4.
    destruct (slot_val (w_heap w) r T0 _ t0 i f S0 R1 V1) as [A0 B0]. destruct (slot_val (w_heap w) r P0 _ p0 i f S2 R2 V2) as [A2 B2].
    destruct (slot_val (w_heap w) r TEx _ tex i f S1 R3 V3) as [A1 B1]. destruct (slot_val (w_heap w) r PEx _ pex i f S3 R4 V4) as [A3 B3].
    exists F1, F2, (fun a => evalR (swapped f) (match a with T0 => g_t0 g | TEx => g_tex g | P0 => g_p0 g | PEx => g_pex g end)).
    split; [exact E|]. split; [intros []; assumption|]. split.
    - unfold is_Fint. unfold vol_exp, brdf_exp in I1. rewrite A0, A1, A2, A3 in I1. cbn [ang_name] in I1. rewrite <- E0, <- E1. rewrite <- E0 in I1. exact I1.
    - eapply is_F_ext; [| |exact I2]; intros th ph; unfold vol_exp, brdf_exp; now apply exp_ext_swap.
  Qed.
End Geometries.
