(** Thin and thick layers: what calc() returns for small and for large optical depths. *)
From Coquelicot Require Import Coquelicot.
From Coq Require Import Lia List.
From Verif Require Import SpecScat SpecExp SpecInt Flip.
From Verif Require Import Properties5 Properties6 Properties26 Wit19.
Open Scope string_scope.
Open Scope list_scope.
Open Scope R_scope.

(** ** The truncated expansions are bounded over all directions *)
Lemma legP_bounded B n : 0 <= B -> exists M, 0 <= M /\ forall z, Rabs z <= B -> Rabs (legP n z) <= M.
Proof.
  intros HB. enough (H : (exists M, 0 <= M /\ forall z, Rabs z <= B -> Rabs (legP n z) <= M) /\
    exists M, 0 <= M /\ forall z, Rabs z <= B -> Rabs (legP (S n) z) <= M) by apply H.
  induction n as [|n [IH (M2 & P2 & H2)]].
  - split; [exists 1; split; [lra|]; intros z _; rewrite legP_0, Rabs_R1; lra|exists B; split; [exact HB|]; intros z Hz; rewrite legP_1; exact Hz].
  - split; [exists M2; split; [exact P2|exact H2]|]. destruct IH as (M1 & P1 & H1).
    pose proof (pos_INR n) as Pn.
    exists (((2 * INR n + 3) * B * M2 + (INR n + 1) * M1) / (INR n + 2)). split.
    + apply Rmult_le_pos; [|left; apply Rinv_0_lt_compat; lra]. apply Rplus_le_le_0_compat; [apply Rmult_le_pos; [apply Rmult_le_pos; lra|exact P2]|apply Rmult_le_pos; lra].
    + intros z Hz. rewrite legP_SS. unfold Rdiv. rewrite Rabs_mult, (Rabs_pos_eq (/ (INR n + 2))) by (left; apply Rinv_0_lt_compat; lra).
      apply Rmult_le_compat_r; [left; apply Rinv_0_lt_compat; lra|]. unfold Rminus. eapply Rle_trans; [apply Rabs_triang|]. rewrite Rabs_Ropp, !Rabs_mult.
      rewrite (Rabs_pos_eq (2 * INR n + 3)), (Rabs_pos_eq (INR n + 1)) by lra. apply Rplus_le_compat.
      * apply Rmult_le_compat; [apply Rmult_le_pos; [lra|apply Rabs_pos]|apply Rabs_pos|apply Rmult_le_compat_l; [lra|exact Hz]|apply H2; exact Hz].
      * apply Rmult_le_compat_l; [lra|apply H1; exact Hz].
Qed.
Lemma leg_series_bounded B c n : 0 <= B -> exists M, 0 <= M /\ forall z, Rabs z <= B -> Rabs (leg_series c n z) <= M.
Proof.
  intros HB. induction n as [|n (M & P & H)]; [exists 0; split; [lra|]; intros z _; cbn [leg_series]; rewrite Rabs_R0; lra|].
  destruct (legP_bounded B n HB) as (L & PL & HL). exists (M + Rabs (c n) * L). split; [apply Rplus_le_le_0_compat; [exact P|apply Rmult_le_pos; [apply Rabs_pos|exact PL]]|].
  intros z Hz. cbn [leg_series]. eapply Rle_trans; [apply Rabs_triang|]. apply Rplus_le_compat; [apply H, Hz|]. rewrite Rabs_mult.
  apply Rmult_le_compat_l; [apply Rabs_pos|apply HL, Hz].
Qed.
Lemma abs_le1_mult a b : Rabs a <= 1 -> Rabs b <= 1 -> Rabs (a * b) <= 1.
Proof. intros Ha Hb. rewrite Rabs_mult. replace 1 with (1 * 1) by ring. apply Rmult_le_compat; auto; apply Rabs_pos. Qed.
Lemma abs_cos x : Rabs (cos x) <= 1.
Proof. apply Rabs_le. pose proof (COS_bound x). lra. Qed.
Lemma abs_sin x : Rabs (sin x) <= 1.
Proof. apply Rabs_le. pose proof (SIN_bound x). lra. Qed.
Lemma cos_angle_bounded a t0 tex p0 pex : Rabs (cos_angle a t0 tex p0 pex) <= Rabs (ga0 a) + (Rabs (ga1 a) + Rabs (ga2 a)).
Proof.
  unfold cos_angle.
  assert (P : forall c u, Rabs u <= 1 -> Rabs (c * u) <= Rabs c).
  { intros c u Hu. rewrite Rabs_mult. rewrite <- (Rmult_1_r (Rabs c)) at 2. apply Rmult_le_compat_l; [apply Rabs_pos|exact Hu]. }
  eapply Rle_trans; [apply Rabs_triang|]. apply Rplus_le_compat.
  - rewrite Rmult_assoc. apply P, abs_le1_mult; apply abs_cos.
  - replace (sin t0 * sin tex * (ga1 a * cos p0 * cos pex + ga2 a * sin p0 * sin pex)) with
      (ga1 a * (sin t0 * sin tex * (cos p0 * cos pex)) + ga2 a * (sin t0 * sin tex * (sin p0 * sin pex))) by ring.
    eapply Rle_trans; [apply Rabs_triang|].
    apply Rplus_le_compat; apply P, abs_le1_mult; apply abs_le1_mult; first [apply abs_sin|apply abs_cos].
Qed.
Lemma expansion_bounded f s : exists M, 0 <= M /\ forall t0 tex p0 pex, Rabs (expansion_value f s t0 tex p0 pex) <= M.
Proof.
  assert (G : forall a c n, exists M, 0 <= M /\ forall t0 tex p0 pex, Rabs (leg_series c n (cos_angle a t0 tex p0 pex)) <= M).
  { intros a c n. destruct (leg_series_bounded (Rabs (ga0 a) + (Rabs (ga1 a) + Rabs (ga2 a))) c n) as (M & P & H);
      [pose proof (Rabs_pos (ga0 a)); pose proof (Rabs_pos (ga1 a)); pose proof (Rabs_pos (ga2 a)); lra|].
    exists M. split; [exact P|]. intros. apply H, cos_angle_bounded. }
  destruct s as [| | | | | | | |cs a]; try (unfold expansion_value; apply G). unfold expansion_value.
  assert (W : forall h : wchoice -> R -> R -> R -> R -> R, (forall c, exists M, 0 <= M /\ forall t0 tex p0 pex, Rabs (h c t0 tex p0 pex) <= M) ->
    forall cs', exists M, 0 <= M /\ forall t0 tex p0 pex, Rabs (wsum (fun c => h c t0 tex p0 pex) cs') <= M).
  { intros h Hh cs'. induction cs' as [|c cs' (M & P & H)]; [exists 0; split; [lra|]; intros; cbn [wsum fold_right]; rewrite Rabs_R0; lra|].
    destruct (Hh c) as (L & PL & HL). exists (L + M). split; [lra|]. intros. cbn [wsum fold_right]. eapply Rle_trans; [apply Rabs_triang|].
    apply Rplus_le_compat; [apply HL|apply H]. }
  apply (W (fun c t0 tex p0 pex => evalR f (fst c) * leg_series (coef_value f (snd c)) (group_nc cs (scat_a (snd c))) (cos_angle (ev_a f (scat_a (snd c))) t0 tex p0 pex))).
  intros c. destruct (G (ev_a f (scat_a (snd c))) (coef_value f (snd c)) (group_nc cs (scat_a (snd c)))) as (M & P & H).
  exists (Rabs (evalR f (fst c)) * M). split; [apply Rmult_le_pos; [apply Rabs_pos|exact P]|]. intros. rewrite Rabs_mult. apply Rmult_le_compat_l; [apply Rabs_pos|apply H].
Qed.

(** ** The three contributions of one evaluation, with the optical depth singled out *)
Section Evaluated.
  Context (x : point) (sg : bool) (f0 : string -> R) (V SRF : scat).
  Let u := unit_factor sg x.
  Lemma interaction_between Mv Ms : (forall t0 tex p0 pex, Rabs (expansion_value f0 V t0 tex p0 pex) <= Mv) ->
    (forall t0 tex p0 pex, Rabs (expansion_value f0 SRF t0 tex p0 pex) <= Ms) ->
    forall w o kw i mono f tau y1 y2 y3, calc_at w o kw i mono sg false (set_tau x tau) f V SRF y1 y2 y3 -> same_params f f0 V SRF ->
    0 < tau /\ y1 = Fin (surface_value (set_tau x tau) * u) /\ y2 = Fin (volume_value (set_tau x tau) * u) /\
    exists n, y3 = Fin n /\ Rabs n <= Rabs (p_norm x * (1 - p_bsfr x) * p_I0 x * cos (p_t0 x) * p_omega x * u) * (2 * PI * Mv * Ms) *
      (exp (- tau / cos (p_tex x)) * Rmin (tau / cos (p_t0 x)) (/ tau) + exp (- tau / cos (p_t0 x)) * Rmin (tau / cos (p_tex x)) (/ tau)).
  Proof.
    intros BV BS w o kw i mono f tau y1 y2 y3 H SP. pose proof (calc_at_basic _ _ _ _ _ _ _ _ _ _ _ _ _ _ H) as [PV PS].
    pose proof (calc_at_returns _ _ _ _ _ _ _ _ _ _ _ _ _ _ H) as R.
    destruct H as (a & T & E & Fl & _ & Vi & Sa & _ & _ & HI & -> & -> & ->). pose proof Sa as (P & _ & _ & _ & _ & _ & _ & _ & C0 & C1 & Tp). cbn [p_tau set_tau p_t0 p_tex] in Tp, C0, C1.
    destruct (C47_direct_contributions w o kw a true sg false i _ (tidy_good _ _ T) E Fl Vi P) as [D1 D2]; cbn [p_t0 p_tex p_tau p_I0 set_tau]; try lra; [exact HI|].
    split; [exact Tp|]. split; [exact D1|]. split; [exact D2|].
    assert (BV' : forall t0 tex p0 pex, Rabs (expansion_value f V t0 tex p0 pex) <= Mv) by (intros; rewrite (expansion_value_ext f f0 V); [apply BV|exact PV|intros s Hs; apply SP; auto]).
    assert (BS' : forall t0 tex p0 pex, Rabs (expansion_value f SRF t0 tex p0 pex) <= Ms) by (intros; rewrite (expansion_value_ext f f0 SRF); [apply BS|exact PS|intros s Hs; apply SP; auto]).
    exact (C71_interaction_size w (OCalc o kw) o i _ true sg (set_tau x tau) f V SRF Mv Ms T R Fl Sa HI BV' BS').
  Qed.
End Evaluated.

Lemma exp_neg_le1 y : 0 <= y -> 0 < exp (- y) <= 1.
Proof. intros H. split; [apply exp_pos|]. rewrite <- exp_0. destruct (Req_dec y 0) as [->|N]; [rewrite Ropp_0; lra|]. left. apply exp_increasing. lra. Qed.
Lemma one_minus_exp y : 0 <= y -> 0 <= 1 - exp (- y) <= y.
Proof. intros H. destruct (exp_neg_le1 y H). split; [lra|]. destruct (Req_dec y 0) as [->|N]; [rewrite Ropp_0, exp_0; lra|]. pose proof (exp_ineq1 (- y)). lra. Qed.
Lemma exp_neg_inv y : 0 < y -> exp (- y) <= / y.
Proof.
  intros H. rewrite exp_Ropp. apply Rinv_le_contravar; [exact H|]. pose proof (exp_ineq1 y). lra.
Qed.

(** *** C93.  A thin layer: every contribution tends to that of bare soil, at a rate proportional to tau. *)
Theorem C93_thin_layer : forall x sg f0 V SRF, exists K, 0 <= K /\
  forall w o kw i mono f tau y1 y2 y3, calc_at w o kw i mono sg false (set_tau x tau) f V SRF y1 y2 y3 -> same_params f f0 V SRF ->
  exists s v n, y1 = Fin s /\ y2 = Fin v /\ y3 = Fin n /\
    Rabs (s - bare_value x * unit_factor sg x) <= K * tau /\ Rabs v <= K * tau /\ Rabs n <= K * tau.
Proof.
  intros x sg f0 V SRF. destruct (expansion_bounded f0 V) as (Mv & PV & BV). destruct (expansion_bounded f0 SRF) as (Ms & PS & BS).
  set (u := unit_factor sg x). set (c := / cos (p_t0 x) + / cos (p_tex x)).
  set (A1 := Rabs (p_norm x * p_I0 x * cos (p_t0 x) * p_brdf x * (1 - p_bsfr x) * u)).
  set (A2 := Rabs ((1 - p_bsfr x) * (p_I0 x * p_omega x * (cos (p_t0 x) / (cos (p_t0 x) + cos (p_tex x))) * p_vol x) * u)).
  set (A3 := Rabs (p_norm x * (1 - p_bsfr x) * p_I0 x * cos (p_t0 x) * p_omega x * u) * (2 * PI * Mv * Ms)).
  assert (N1 : 0 <= A1) by apply Rabs_pos. assert (N2 : 0 <= A2) by apply Rabs_pos. pose proof PI_RGT_0 as HP.
  assert (N3 : 0 <= A3) by (apply Rmult_le_pos; [apply Rabs_pos|]; apply Rmult_le_pos; [apply Rmult_le_pos; lra|exact PS]).
  exists ((A1 + A2 + A3) * Rabs c). split; [apply Rmult_le_pos; [lra|apply Rabs_pos]|].
  intros w o kw i mono f tau y1 y2 y3 H SP.
  pose proof H as (a0 & _ & _ & _ & _ & _ & (_ & _ & _ & _ & _ & _ & _ & _ & C0 & C1 & _) & _). cbn [p_t0 p_tex set_tau] in C0, C1.
  destruct (interaction_between x sg f0 V SRF Mv Ms BV BS w o kw i mono f tau y1 y2 y3 H SP) as (Tp & E1 & E2 & n & E3 & L).
  fold u in E1, E2, L. fold A3 in L.
  assert (I0 : 0 < / cos (p_t0 x)) by (apply Rinv_0_lt_compat; lra). assert (I1 : 0 < / cos (p_tex x)) by (apply Rinv_0_lt_compat; lra).
  assert (Pc : 0 < c) by (unfold c; lra). rewrite (Rabs_pos_eq c) by lra.
  set (e := attenuation (set_tau x tau)) in *.
  assert (Ee : 0 <= 1 - e <= c * tau).
  { unfold e, attenuation. cbn [p_t0 p_tex p_tau set_tau]. replace (c * tau) with (tau / cos (p_t0 x) + tau / cos (p_tex x)) by (unfold c, Rdiv; ring).
    apply one_minus_exp. unfold Rdiv. assert (0 < tau * / cos (p_t0 x)) by (apply Rmult_lt_0_compat; lra). assert (0 < tau * / cos (p_tex x)) by (apply Rmult_lt_0_compat; lra). lra. }
  assert (Pt : 0 <= c * tau) by lra.
  assert (Mono : forall A B, 0 <= A -> A <= B -> A * (c * tau) <= B * c * tau) by (intros A B HA HB; rewrite Rmult_assoc; apply Rmult_le_compat_r; assumption).
  exists (surface_value (set_tau x tau) * u), (volume_value (set_tau x tau) * u), n.
  split; [exact E1|]. split; [exact E2|]. split; [exact E3|]. split; [|split].
  - unfold surface_value, bare_value. cbn [p_norm p_I0 p_t0 p_brdf p_bsfr set_tau]. fold e.
    replace (p_norm x * p_I0 x * cos (p_t0 x) * p_brdf x * ((1 - p_bsfr x) * e + p_bsfr x) * u - p_norm x * p_I0 x * cos (p_t0 x) * p_brdf x * u)
      with (- ((p_norm x * p_I0 x * cos (p_t0 x) * p_brdf x * (1 - p_bsfr x) * u) * (1 - e))) by ring.
    rewrite Rabs_Ropp, Rabs_mult, (Rabs_pos_eq (1 - e)) by lra. fold A1.
    eapply Rle_trans; [apply Rmult_le_compat_l; [exact N1|apply Ee]|]. apply Mono; lra.
  - unfold volume_value. cbn [p_I0 p_omega p_t0 p_tex p_vol p_bsfr set_tau]. fold e.
    replace ((1 - p_bsfr x) * (p_I0 x * p_omega x * (cos (p_t0 x) / (cos (p_t0 x) + cos (p_tex x))) * (1 - e) * p_vol x) * u)
      with (((1 - p_bsfr x) * (p_I0 x * p_omega x * (cos (p_t0 x) / (cos (p_t0 x) + cos (p_tex x))) * p_vol x) * u) * (1 - e)) by ring.
    rewrite Rabs_mult, (Rabs_pos_eq (1 - e)) by lra. fold A2.
    eapply Rle_trans; [apply Rmult_le_compat_l; [exact N2|apply Ee]|]. apply Mono; lra.
  - eapply Rle_trans; [exact L|]. eapply Rle_trans; [|apply (Mono A3); lra]. apply Rmult_le_compat_l; [exact N3|].
    destruct (exp_neg_le1 (tau / cos (p_tex x))) as [Q1 Q2]; [left; apply Rdiv_lt_0_compat; lra|]. destruct (exp_neg_le1 (tau / cos (p_t0 x))) as [Q3 Q4]; [left; apply Rdiv_lt_0_compat; lra|].
    replace (- tau / cos (p_tex x)) with (- (tau / cos (p_tex x))) by (unfold Rdiv; ring). replace (- tau / cos (p_t0 x)) with (- (tau / cos (p_t0 x))) by (unfold Rdiv; ring).
    replace (c * tau) with (1 * (tau / cos (p_t0 x)) + 1 * (tau / cos (p_tex x))) by (unfold c, Rdiv; ring).
    assert (B1 : 0 < tau / cos (p_t0 x)) by (apply Rdiv_lt_0_compat; lra). assert (B2 : 0 < tau / cos (p_tex x)) by (apply Rdiv_lt_0_compat; lra).
    assert (B3 : 0 < / tau) by (apply Rinv_0_lt_compat; lra).
    apply Rplus_le_compat; (apply Rmult_le_compat; [lra|left; apply Rmin_glb_lt; assumption|lra|apply Rmin_l]).
Qed.
Print Assumptions C93_thin_layer.

(** *** C94.  A thick layer hides the soil: the surface contribution tends to that of the uncovered fraction, the volume contribution to that of
    an infinitely deep layer, and the interaction contribution to 0, at a rate 1/tau. *)
Theorem C94_thick_layer : forall x sg f0 V SRF, exists K, 0 <= K /\
  forall w o kw i mono f tau y1 y2 y3, calc_at w o kw i mono sg false (set_tau x tau) f V SRF y1 y2 y3 -> same_params f f0 V SRF ->
  exists s v n, y1 = Fin s /\ y2 = Fin v /\ y3 = Fin n /\
    Rabs (s - p_bsfr x * bare_value x * unit_factor sg x) <= K / tau /\ Rabs (v - deep_value x * unit_factor sg x) <= K / tau /\ Rabs n <= K / tau.
Proof.
  intros x sg f0 V SRF. destruct (expansion_bounded f0 V) as (Mv & PV & BV). destruct (expansion_bounded f0 SRF) as (Ms & PS & BS).
  set (u := unit_factor sg x).
  set (A1 := Rabs (p_norm x * p_I0 x * cos (p_t0 x) * p_brdf x * (1 - p_bsfr x) * u)).
  set (A2 := Rabs ((1 - p_bsfr x) * (p_I0 x * p_omega x * (cos (p_t0 x) / (cos (p_t0 x) + cos (p_tex x))) * p_vol x) * u)).
  set (A3 := Rabs (p_norm x * (1 - p_bsfr x) * p_I0 x * cos (p_t0 x) * p_omega x * u) * (2 * PI * Mv * Ms)).
  assert (N1 : 0 <= A1) by apply Rabs_pos. assert (N2 : 0 <= A2) by apply Rabs_pos. pose proof PI_RGT_0 as HP.
  assert (N3 : 0 <= A3) by (apply Rmult_le_pos; [apply Rabs_pos|]; apply Rmult_le_pos; [apply Rmult_le_pos; lra|exact PS]).
  exists (A1 + A2 + 2 * A3). split; [lra|].
  intros w o kw i mono f tau y1 y2 y3 H SP.
  pose proof H as (a0 & _ & _ & _ & _ & _ & (_ & _ & _ & _ & _ & _ & _ & _ & C0 & C1 & _) & _). cbn [p_t0 p_tex set_tau] in C0, C1.
  destruct (interaction_between x sg f0 V SRF Mv Ms BV BS w o kw i mono f tau y1 y2 y3 H SP) as (Tp & E1 & E2 & n & E3 & L).
  fold u in E1, E2, L. fold A3 in L. assert (B3 : 0 < / tau) by (apply Rinv_0_lt_compat; lra).
  assert (I0 : 1 < / cos (p_t0 x)) by (rewrite <- Rinv_1 at 1; apply Rinv_lt_contravar; lra). assert (I1 : 1 < / cos (p_tex x)) by (rewrite <- Rinv_1 at 1; apply Rinv_lt_contravar; lra).
  set (e := attenuation (set_tau x tau)) in *.
  assert (Ee : 0 < e <= / tau).
  { unfold e, attenuation. cbn [p_t0 p_tex p_tau set_tau]. split; [apply exp_pos|].
    assert (G : tau < tau / cos (p_t0 x) + tau / cos (p_tex x)).
    { unfold Rdiv. assert (tau * 1 < tau * / cos (p_t0 x)) by (apply Rmult_lt_compat_l; lra). assert (0 < tau * / cos (p_tex x)) by (apply Rmult_lt_0_compat; lra). lra. }
    eapply Rle_trans; [apply exp_neg_inv; lra|]. left. apply Rinv_lt_contravar; [apply Rmult_lt_0_compat; lra|exact G]. }
  assert (Mono : forall A B, 0 <= A -> A <= B -> A * / tau <= B / tau) by (intros A B HA HB; unfold Rdiv; apply Rmult_le_compat_r; lra).
  exists (surface_value (set_tau x tau) * u), (volume_value (set_tau x tau) * u), n.
  split; [exact E1|]. split; [exact E2|]. split; [exact E3|]. split; [|split].
  - unfold surface_value, bare_value. cbn [p_norm p_I0 p_t0 p_brdf p_bsfr set_tau]. fold e.
    replace (p_norm x * p_I0 x * cos (p_t0 x) * p_brdf x * ((1 - p_bsfr x) * e + p_bsfr x) * u - p_bsfr x * (p_norm x * p_I0 x * cos (p_t0 x) * p_brdf x) * u)
      with ((p_norm x * p_I0 x * cos (p_t0 x) * p_brdf x * (1 - p_bsfr x) * u) * e) by ring.
    rewrite Rabs_mult, (Rabs_pos_eq e) by lra. fold A1.
    eapply Rle_trans; [apply Rmult_le_compat_l; [exact N1|apply Ee]|]. apply Mono; lra.
  - unfold volume_value, deep_value. cbn [p_I0 p_omega p_t0 p_tex p_vol p_bsfr set_tau]. fold e.
    replace ((1 - p_bsfr x) * (p_I0 x * p_omega x * (cos (p_t0 x) / (cos (p_t0 x) + cos (p_tex x))) * (1 - e) * p_vol x) * u -
       (1 - p_bsfr x) * (p_I0 x * p_omega x * (cos (p_t0 x) / (cos (p_t0 x) + cos (p_tex x))) * p_vol x) * u)
      with (- (((1 - p_bsfr x) * (p_I0 x * p_omega x * (cos (p_t0 x) / (cos (p_t0 x) + cos (p_tex x))) * p_vol x) * u) * e)) by ring.
    rewrite Rabs_Ropp, Rabs_mult, (Rabs_pos_eq e) by lra. fold A2.
    eapply Rle_trans; [apply Rmult_le_compat_l; [exact N2|apply Ee]|]. apply Mono; lra.
  - eapply Rle_trans; [exact L|]. eapply Rle_trans; [|apply (Mono (A3 * 2)); lra]. rewrite (Rmult_assoc A3). apply Rmult_le_compat_l; [exact N3|].
    destruct (exp_neg_le1 (tau / cos (p_tex x))) as [Q1 Q2]; [left; apply Rdiv_lt_0_compat; lra|]. destruct (exp_neg_le1 (tau / cos (p_t0 x))) as [Q3 Q4]; [left; apply Rdiv_lt_0_compat; lra|].
    replace (- tau / cos (p_tex x)) with (- (tau / cos (p_tex x))) by (unfold Rdiv; ring). replace (- tau / cos (p_t0 x)) with (- (tau / cos (p_t0 x))) by (unfold Rdiv; ring).
    replace (2 * / tau) with (1 * / tau + 1 * / tau) by ring.
    assert (B1 : 0 < tau / cos (p_t0 x)) by (apply Rdiv_lt_0_compat; lra). assert (B2 : 0 < tau / cos (p_tex x)) by (apply Rdiv_lt_0_compat; lra).
    apply Rplus_le_compat; (apply Rmult_le_compat; [lra|left; apply Rmin_glb_lt; assumption|lra|apply Rmin_r]).
Qed.
Print Assumptions C94_thick_layer.
(** two optical depths of one object, everything else equal; in general any uA, uB > 0 *)
Example C93_nonvacuous : forall uA uB, 0 < uA -> 0 < uB -> exists w x f1 f2 y1 y2 y3 z1 z2 z3,
  calc_at w 0%nat nil (0 :: 0 :: nil)%nat true false false (set_tau x uA) f1 VC SC y1 y2 y3 /\
  calc_at w 0%nat nil (0 :: 1 :: nil)%nat true false false (set_tau x uB) f2 VC SC z1 z2 z3 /\ same_params f2 f1 VC SC.
Proof.
  intros uA uB PA PB.
  destruct (wZ_calc_at 1 (1/2) uA uB (0 :: 0 :: nil)%nat) as (y1 & y2 & y3 & H1); [repeat constructor|exact cos1_lt|cbn; lra|].
  destruct (wZ_calc_at 1 (1/2) uA uB (0 :: 1 :: nil)%nat) as (z1 & z2 & z3 & H2); [repeat constructor|exact cos1_lt|cbn; lra|].
  exists (wZ 1 (1/2) uA uB), (xZ 1 (1/2) uA uB (0 :: 0 :: nil)%nat), (fZ 1 (1/2) uA uB (0 :: 0 :: nil)%nat), (fZ 1 (1/2) uA uB (0 :: 1 :: nil)%nat), y1, y2, y3, z1, z2, z3.
  split; [exact H1|]. split; [exact H2|]. intros s [H|H]; simpl in H; repeat (destruct H as [<-|H]; [reflexivity|]); contradiction.
Qed.
