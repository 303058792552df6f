(** Power scattered into the upper hemisphere by the direct contributions.  Nothing here refers to the model of the program. *)
From Coquelicot Require Import Coquelicot.
From Coq Require Import Reals Lia Lra List.
From Verif Require Import ExpInt AzInt LegFacts.
From Verif Require Import SpecScat SpecExp SpecInt FnInt Flip Trunc SpecFig Quad Quad2 Spec Sphere.
Open Scope R_scope.

(** the power leaving through the upper hemisphere, for the intensity [p theta phi] in direction (theta, phi):
    the iterated integral of p(theta, phi) cos(theta) sin(theta) over theta in [0, pi/2] and phi in [0, 2 pi] is v *)
Definition is_power (p : R -> R -> R) (v : R) : Prop :=
  exists J : R -> R, (forall ph, is_RInt (fun th => p th ph * cos th * sin th) 0 (PI / 2) (J ph)) /\ is_RInt J 0 (2 * PI) v.

(** ** Two inequalities *)
Lemma one_exp y : 1 - exp (- y) <= y.
Proof. pose proof (exp_ineq1_le (- y)). lra. Qed.
Lemma x_exp x : x * exp (- x) <= 1 - exp (- x).
Proof. pose proof (exp_ineq1_le x). pose proof (exp_pos (- x)). assert (exp x * exp (- x) = 1) by (rewrite <- exp_plus; replace (x + - x) with 0 by ring; apply exp_0). nra. Qed.
Lemma escape t m0 m : 0 < t -> 0 < m0 -> 0 < m ->
  (1 - exp (- (t / m0 + t / m))) * (m / (m0 + m)) <= 1 - exp (- (t / m0)).
Proof.
  intros T M0 M. set (x := t / m0). set (y := t / m).
  assert (X : 0 < x) by (apply Rdiv_lt_0_compat; assumption). assert (Y : 0 < y) by (apply Rdiv_lt_0_compat; assumption).
  replace (m / (m0 + m)) with (x / (x + y)) by (unfold x, y; field; split; [lra|split; [lra|nra]]).
  apply Rmult_le_reg_r with (x + y); [lra|]. replace ((1 - exp (- (x + y))) * (x / (x + y)) * (x + y)) with (x * (1 - exp (- (x + y)))) by (field; lra).
  replace (- (x + y)) with (- x + - y) by ring. rewrite exp_plus.
  pose proof (one_exp y). pose proof (x_exp x). pose proof (exp_pos (- x)).
  assert (x * exp (- x) * (1 - exp (- y)) <= (1 - exp (- x)) * y); [|lra].
  assert (exp (- y) < 1) by (rewrite <- exp_0; apply exp_increasing; lra). apply Rmult_le_compat; try lra. apply Rmult_le_pos; lra.
Qed.

Lemma zero_int u w : is_RInt (fun _ => 0) u w 0.
Proof. eapply is_val; [apply (is_RInt_const u w 0)|]. unfold scal. simpl. unfold mult. simpl. ring. Qed.

Section Bound.
  Context (I0 t0 tau omega nrm bsf Rf q : R) (b p s v : R -> R -> R).
  Let m0 := cos t0. Let a := exp (- tau / m0).
  Let att (th : R) := exp (- (tau / cos t0 + tau / cos th)).
  Hypothesis (HI : 0 <= I0) (H0 : 0 < cos t0) (Ht : 0 < tau) (Ho : 0 <= omega) (Hn : 0 <= nrm) (Hb : 0 <= bsf <= 1).
  Hypothesis (Pb : forall th ph, 0 <= b th ph) (Pp : forall th ph, 0 <= p th ph).
  Hypothesis (Es : forall th ph, 0 < th < PI / 2 -> s th ph = nrm * I0 * cos t0 * b th ph * ((1 - bsf) * att th + bsf)).
  Hypothesis (Ev : forall th ph, 0 < th < PI / 2 ->
    v th ph = (1 - bsf) * (I0 * omega * (cos t0 / (cos t0 + cos th)) * (1 - att th) * p th ph)).
  Let A := nrm * I0 * m0 * ((1 - bsf) * a + bsf). Let C := (1 - bsf) * I0 * omega * m0 * (1 - a).
  Lemma a_in : 0 < a < 1.
  Proof.
    unfold a. split; [apply exp_pos|]. rewrite <- exp_0. apply exp_increasing. unfold Rdiv. rewrite <- Ropp_mult_distr_l.
    assert (0 < tau * / m0) by (apply Rmult_lt_0_compat; [assumption|now apply Rinv_0_lt_compat]). lra.
  Qed.
  Lemma A_pos : 0 <= A.
  Proof. pose proof a_in. unfold A, m0. apply Rmult_le_pos; [apply Rmult_le_pos; [apply Rmult_le_pos|]; lra|]. assert (0 <= (1 - bsf) * a) by (apply Rmult_le_pos; lra). lra. Qed.
  Lemma C_pos : 0 <= C.
  Proof. pose proof a_in. unfold C, m0. repeat apply Rmult_le_pos; lra. Qed.
  Lemma att_in th : 0 < th < PI / 2 -> 0 < att th <= a /\ (1 - att th) * (cos th / (cos t0 + cos th)) <= 1 - a.
  Proof.
    intros H. assert (0 < cos th) by (apply cos_gt_0; lra). assert (E : a = exp (- (tau / cos t0))) by (unfold a, m0; f_equal; field; lra).
    rewrite E. split; [split; [apply exp_pos|]|now apply escape]. unfold att. left. apply exp_increasing.
    assert (0 < tau / cos th) by (now apply Rdiv_lt_0_compat). lra.
  Qed.
  Lemma at_most th ph : 0 < th < PI / 2 ->
    0 <= (s th ph + v th ph) * cos th * sin th <= A * (b th ph * cos th * sin th) + C * (p th ph * sin th).
  Proof.
    intros H. assert (Hc : 0 < cos th) by (apply cos_gt_0; lra). assert (Hs : 0 < sin th) by (apply sin_gt_0; lra).
    destruct (att_in th H) as [[A1 A2] A3]. pose proof a_in as [a1 a2]. rewrite (Es th ph H), (Ev th ph H). pose proof (Pb th ph) as B. pose proof (Pp th ph) as P.
    set (e := att th) in *. set (c := cos th) in *. set (z := sin th) in *. set (B0 := b th ph) in *. set (P0 := p th ph) in *. unfold A, C. assert (M0 : 0 < m0) by exact H0. change (cos t0) with m0 in A3. change (cos t0) with m0.
    assert (K : 0 < m0 / (m0 + c)) by (apply Rdiv_lt_0_compat; lra).
    replace ((nrm * I0 * m0 * B0 * ((1 - bsf) * e + bsf) + (1 - bsf) * (I0 * omega * (m0 / (m0 + c)) * (1 - e) * P0)) * c * z)
      with (nrm * I0 * m0 * B0 * c * z * ((1 - bsf) * e + bsf) + (1 - bsf) * I0 * omega * m0 * P0 * z * ((1 - e) * (c / (m0 + c)))) by (field; lra).
    replace (nrm * I0 * m0 * ((1 - bsf) * a + bsf) * (B0 * c * z) + (1 - bsf) * I0 * omega * m0 * (1 - a) * (P0 * z))
      with (nrm * I0 * m0 * B0 * c * z * ((1 - bsf) * a + bsf) + (1 - bsf) * I0 * omega * m0 * P0 * z * (1 - a)) by ring.
    assert (X : 0 <= nrm * I0 * m0 * B0 * c * z) by (repeat apply Rmult_le_pos; lra).
    assert (Y : 0 <= (1 - bsf) * I0 * omega * m0 * P0 * z) by (repeat apply Rmult_le_pos; lra).
    assert (F1 : (1 - bsf) * e <= (1 - bsf) * a) by (apply Rmult_le_compat_l; lra). assert (F0 : 0 <= (1 - bsf) * e) by (apply Rmult_le_pos; lra).
    assert (F2 : 0 <= (1 - e) * (c / (m0 + c))) by (apply Rmult_le_pos; [lra|left; apply Rdiv_lt_0_compat; lra]).
    split.
    - apply Rplus_le_le_0_compat; apply Rmult_le_pos; lra.
    - apply Rplus_le_compat; apply Rmult_le_compat_l; lra.
  Qed.
  Hypothesis (Ib : is_power b Rf) (Ip : is_sphere p 1) (Iq : is_power (fun th ph => s th ph + v th ph) q).
  Lemma power_bound : 0 <= q <= A * Rf + C.
  Proof.
    pose proof PI_RGT_0 as HP. destruct Ib as (Jb & B1 & B2), Ip as (Jp & P1 & P2), Iq as (J & Q1 & Q2).
    assert (K : forall ph, 0 <= J ph <= A * Jb ph + C * Jp ph).
    { intros ph. split.
      - apply (is_RInt_le (fun _ => 0) (fun th => (s th ph + v th ph) * cos th * sin th) 0 (PI / 2)); [lra| |apply Q1|intros th H; now apply at_most].
        apply zero_int.
      - assert (E1 : ex_RInt (fun th => p th ph * sin th) 0 (PI / 2)) by (apply (ex_RInt_Chasles_1 (fun th => p th ph * sin th) 0 (PI / 2) PI); [lra|eexists; apply P1]).
        assert (E2 : ex_RInt (fun th => p th ph * sin th) (PI / 2) PI) by (apply (ex_RInt_Chasles_2 (fun th => p th ph * sin th) 0 (PI / 2) PI); [lra|eexists; apply P1]).
        destruct E1 as [u1 E1], E2 as [u2 E2]. pose proof (is_RInt_Chasles _ _ _ _ _ _ E1 E2) as E3.
        assert (W : plus u1 u2 = Jp ph) by (rewrite <- (is_RInt_unique _ _ _ _ (P1 ph)); symmetry; now apply is_RInt_unique).
        assert (U2 : 0 <= u2).
        { apply (is_RInt_le (fun _ => 0) (fun th => p th ph * sin th) (PI / 2) PI); [lra| |exact E2|].
          - apply zero_int.
          - intros th H. apply Rmult_le_pos; [apply Pp|]. apply sin_ge_0; lra. }
        change (u1 + u2 = Jp ph) in W. rewrite <- W.
        apply Rle_trans with (A * Jb ph + C * u1); [|pose proof C_pos; assert (0 <= C * u2) by (now apply Rmult_le_pos); lra].
        apply (is_RInt_le (fun th => (s th ph + v th ph) * cos th * sin th) (fun th => A * (b th ph * cos th * sin th) + C * (p th ph * sin th)) 0 (PI / 2));
          [lra|apply Q1| |intros th H; now apply at_most].
        now apply (int_lin (fun th => b th ph * cos th * sin th) (fun th => p th ph * sin th)). }
    split.
    - apply (is_RInt_le (fun _ => 0) J 0 (2 * PI)); [lra| |exact Q2|intros ph _; apply K].
      apply zero_int.
    - replace (A * Rf + C) with (A * Rf + C * 1) by ring.
      apply (is_RInt_le J (fun ph => A * Jb ph + C * Jp ph) 0 (2 * PI)); [lra|exact Q2|now apply int_lin|intros ph _; apply K].
  Qed.
End Bound.

(** ** Existence *)
Lemma weighted (b : R -> R -> R) (K : R -> R) (M : R) : uc b -> (forall x, continuous K x) -> 0 <= M -> (forall x, Rabs (K x) <= M) ->
  exists J v, (forall ph, is_RInt (fun th => b th ph * K th) 0 (PI / 2) (J ph)) /\ is_RInt J 0 (2 * PI) v.
Proof.
  intros B CK HM BK. pose proof PI_RGT_0 as HP.
  assert (EX : forall ph, ex_RInt (fun th => b th ph * K th) 0 (PI / 2)).
  { intros ph. apply (ex_RInt_continuous (V := R_CompleteNormedModule)). intros z _. apply (continuous_mult (K := R_AbsRing) (fun th => b th ph) K); [|apply CK].
    apply continuity_pt_filterlim. intros eps He. destruct (B (eps / 2) ltac:(lra)) as (d & D & L). exists d. split; [assumption|].
    intros y [_ Hy]. unfold dist in *. simpl in *. unfold R_dist in *.
    assert (Rabs (b y ph - b z ph) <= eps / 2) by (apply L; [exact Hy|rewrite Rminus_diag_eq, Rabs_R0 by reflexivity; assumption]). lra. }
  set (J := fun ph => RInt (fun th => b th ph * K th) 0 (PI / 2)).
  assert (JC : forall ph, continuity_pt J ph).
  { intros ph eps He. destruct (B (eps / (PI * (M + 1))) ltac:(apply Rdiv_lt_0_compat; [lra|apply Rmult_lt_0_compat; lra])) as (d & D & L). exists d. split; [assumption|].
    intros y [_ Hy]. unfold dist in *. simpl in *. unfold R_dist in *. unfold J.
    assert (E : RInt (fun th => b th y * K th) 0 (PI / 2) - RInt (fun th => b th ph * K th) 0 (PI / 2) = RInt (fun th => b th y * K th - b th ph * K th) 0 (PI / 2)).
    { symmetry. exact (RInt_minus _ _ _ _ (EX y) (EX ph)). }
    rewrite E. eapply Rle_lt_trans.
    - apply (abs_RInt_le_const _ 0 (PI / 2) (eps / (PI * (M + 1)) * (M + 1))); [lra| |].
      + exact (ex_RInt_minus (V := R_CompleteNormedModule) _ _ _ _ (EX y) (EX ph)).
      + intros th _. replace (b th y * K th - b th ph * K th) with ((b th y - b th ph) * K th) by ring. rewrite Rabs_mult.
        apply Rmult_le_compat; try apply Rabs_pos; [|pose proof (BK th); lra]. apply L; [rewrite Rminus_diag_eq, Rabs_R0 by reflexivity; assumption|exact Hy].
    - replace ((PI / 2 - 0) * (eps / (PI * (M + 1)) * (M + 1))) with (eps / 2) by (field; lra). lra. }
  exists J, (RInt J 0 (2 * PI)). split; [intros ph; now apply (RInt_correct (V := R_CompleteNormedModule))|].
  apply (RInt_correct (V := R_CompleteNormedModule)), (ex_RInt_continuous (V := R_CompleteNormedModule)). intros z _. apply continuity_pt_filterlim, JC.
Qed.

(** exp (- t / c), extended by 0 *)
Definition fade (t c : R) : R := if Rlt_dec 0 c then exp (- (t / c)) else 0.
Lemma fade_in t c : 0 < t -> 0 <= fade t c <= 1.
Proof.
  intros H. unfold fade. destruct (Rlt_dec 0 c) as [Hc|]; [|lra]. split; [left; apply exp_pos|]. left. rewrite <- exp_0. apply exp_increasing.
  assert (0 < t / c) by (now apply Rdiv_lt_0_compat). lra.
Qed.
Lemma fade_cont t c : 0 < t -> continuity_pt (fade t) c.
Proof.
  intros H. destruct (total_order_T 0 c) as [[Hc|Hc]|Hc].
  - apply (continuity_pt_ext_loc (fun c => exp (- (t / c)))).
    + assert (L : locally c (fun y => 0 < y)) by (apply (open_gt 0); exact Hc). destruct L as [d L]. exists d. intros y Hy. specialize (L y Hy). unfold fade. destruct (Rlt_dec 0 y); [reflexivity|lra].
    + apply continuity_pt_filterlim. apply (ex_derive_continuous (fun c => exp (- (t / c)))). auto_derive. lra.
  - subst c. intros eps He. exists (t * eps). split; [now apply Rmult_lt_0_compat|]. intros y [_ Hy]. unfold dist in *. simpl in *. unfold R_dist in *.
    unfold fade at 2. destruct (Rlt_dec 0 0); [lra|]. rewrite Rminus_0_r in *. unfold fade. destruct (Rlt_dec 0 y) as [P|]; [|rewrite Rabs_R0; lra].
    rewrite Rabs_pos_eq in * by (try (left; apply exp_pos); lra).
    assert (0 < t / y) by (now apply Rdiv_lt_0_compat). set (u := t / y) in *. pose proof (x_exp u) as X. pose proof (exp_pos (- u)).
    apply Rle_lt_trans with (/ u); [|unfold u; replace (/ (t / y)) with (y / t) by (field; lra); apply Rmult_lt_reg_r with t; [lra|]; replace (y / t * t) with y by (field; lra); lra].
    apply Rmult_le_reg_l with u; [assumption|]. rewrite Rinv_r by lra. lra.
  - apply (continuity_pt_ext_loc (fun _ => 0)).
    + assert (L : locally c (fun y => y < 0)) by (apply (open_lt 0); exact Hc). destruct L as [d L]. exists d. intros y Hy. specialize (L y Hy). unfold fade. destruct (Rlt_dec 0 y); [lra|reflexivity].
    + apply continuity_pt_const. intros u w. reflexivity.
Qed.

Section Exists.
  Context (I0 t0 tau omega nrm bsf : R) (b p s v : R -> R -> R).
  Let att (th : R) := exp (- (tau / cos t0 + tau / cos th)).
  Hypothesis (H0 : 0 < cos t0) (Ht : 0 < tau).
  Hypothesis (Ub : uc b) (Up : uc p).
  Hypothesis (Es : forall th ph, 0 < th < PI / 2 -> s th ph = nrm * I0 * cos t0 * b th ph * ((1 - bsf) * att th + bsf)).
  Hypothesis (Ev : forall th ph, 0 < th < PI / 2 ->
    v th ph = (1 - bsf) * (I0 * omega * (cos t0 / (cos t0 + cos th)) * (1 - att th) * p th ph)).
  Let e0 := exp (- (tau / cos t0)).
  Let K1 (th : R) := ((1 - bsf) * (e0 * fade tau (cos th)) + bsf) * cos th * sin th.
  Let K2 (th : R) := cos t0 / (cos t0 + Rabs (cos th)) * (1 - e0 * fade tau (cos th)) * cos th * sin th.
  Lemma e0_in : 0 < e0 < 1.
  Proof. unfold e0. split; [apply exp_pos|]. rewrite <- exp_0. apply exp_increasing. assert (0 < tau / cos t0) by (now apply Rdiv_lt_0_compat). lra. Qed.
  Lemma cont_fade th : continuity_pt (fun th => e0 * fade tau (cos th)) th.
  Proof. apply (continuity_pt_mult (fun _ => e0) (fun th => fade tau (cos th))); [apply continuity_pt_const; intros u w; reflexivity|].
    apply (continuity_pt_comp cos (fade tau)); [apply continuity_cos|now apply fade_cont]. Qed.
  Lemma cs_cont (g : R -> R) th : continuity_pt g th -> continuous (fun th => g th * cos th * sin th) th.
  Proof. intros H. apply continuity_pt_filterlim. apply (continuity_pt_mult (fun th => g th * cos th) sin); [|apply continuity_sin]. apply (continuity_pt_mult g cos); [assumption|apply continuity_cos]. Qed.
  Lemma cs_le g M th : Rabs g <= M -> Rabs (g * cos th * sin th) <= M.
  Proof.
    intros H. rewrite !Rabs_mult. pose proof (Rabs_pos g). assert (Rabs (cos th) <= 1) by (apply Rabs_le, COS_bound). assert (Rabs (sin th) <= 1) by (apply Rabs_le, SIN_bound).
    pose proof (Rabs_pos (cos th)). pose proof (Rabs_pos (sin th)). apply Rle_trans with (Rabs g * 1 * 1); [|lra]. apply Rmult_le_compat; try lra; [apply Rmult_le_pos; lra|].
    apply Rmult_le_compat_l; lra.
  Qed.
  Lemma K1_cont th : continuous K1 th.
  Proof.
    apply cs_cont. apply (continuity_pt_plus (fun th => (1 - bsf) * (e0 * fade tau (cos th))) (fun _ => bsf)); [|apply continuity_pt_const; intros u w; reflexivity].
    apply (continuity_pt_mult (fun _ => 1 - bsf)); [apply continuity_pt_const; intros u w; reflexivity|apply cont_fade].
  Qed.
  Lemma K2_cont th : continuous K2 th.
  Proof.
    apply cs_cont. apply (continuity_pt_mult (fun th => cos t0 / (cos t0 + Rabs (cos th))) (fun th => 1 - e0 * fade tau (cos th))).
    - apply (continuity_pt_div (fun _ => cos t0) (fun th => cos t0 + Rabs (cos th))); [apply continuity_pt_const; intros u w; reflexivity| |pose proof (Rabs_pos (cos th)); lra].
      apply (continuity_pt_plus (fun _ => cos t0) (fun th => Rabs (cos th))); [apply continuity_pt_const; intros u w; reflexivity|].
      apply (continuity_pt_comp cos Rabs); [apply continuity_cos|apply Rcontinuity_abs].
    - apply (continuity_pt_minus (fun _ => 1)); [apply continuity_pt_const; intros u w; reflexivity|apply cont_fade].
  Qed.
  Lemma ef_in th : 0 <= e0 * fade tau (cos th) <= 1.
  Proof. pose proof e0_in. pose proof (fade_in tau (cos th) Ht). split; [apply Rmult_le_pos; lra|]. replace 1 with (1 * 1) by ring. apply Rmult_le_compat; lra. Qed.
  Lemma K1_le th : Rabs (K1 th) <= Rabs (1 - bsf) + Rabs bsf.
  Proof.
    apply cs_le. eapply Rle_trans; [apply Rabs_triang|]. apply Rplus_le_compat_r. rewrite Rabs_mult. pose proof (ef_in th). rewrite (Rabs_pos_eq (e0 * _)) by lra.
    pose proof (Rabs_pos (1 - bsf)). nra.
  Qed.
  Lemma K2_le th : Rabs (K2 th) <= 1.
  Proof.
    apply cs_le. pose proof (ef_in th). pose proof (Rabs_pos (cos th)).
    assert (0 < cos t0 / (cos t0 + Rabs (cos th)) <= 1).
    { split; [apply Rdiv_lt_0_compat; lra|]. apply Rmult_le_reg_r with (cos t0 + Rabs (cos th)); [lra|]. replace (cos t0 / (cos t0 + Rabs (cos th)) * (cos t0 + Rabs (cos th))) with (cos t0) by (field; lra). lra. }
    rewrite Rabs_pos_eq; [|apply Rmult_le_pos; lra]. replace 1 with (1 * 1) by ring. apply Rmult_le_compat; lra.
  Qed.
  Lemma power_exists : exists q, is_power (fun th ph => s th ph + v th ph) q.
  Proof.
    pose proof PI_RGT_0 as HP.
    destruct (weighted b K1 (Rabs (1 - bsf) + Rabs bsf) Ub K1_cont ltac:(pose proof (Rabs_pos (1 - bsf)); pose proof (Rabs_pos bsf); lra) K1_le) as (J1 & v1 & A1 & B1).
    destruct (weighted p K2 1 Up K2_cont ltac:(lra) K2_le) as (J2 & v2 & A2 & B2).
    set (k1 := nrm * I0 * cos t0). set (k2 := (1 - bsf) * (I0 * omega)).
    exists (k1 * v1 + k2 * v2), (fun ph => k1 * J1 ph + k2 * J2 ph). split; [|now apply int_lin]. intros ph.
    eapply is_RInt_ext; [|apply (int_lin _ _ _ _ k1 k2 _ _ (A1 ph) (A2 ph))]. intros th. rewrite Rmin_left, Rmax_right by lra. intros H. cbv beta.
    assert (Hc : 0 < cos th) by (apply cos_gt_0; lra). rewrite (Es th ph H), (Ev th ph H).
    assert (E : att th = e0 * fade tau (cos th)).
    { unfold att, e0, fade. destruct (Rlt_dec 0 (cos th)); [|lra]. rewrite <- exp_plus. f_equal. ring. }
    rewrite E. unfold K1, K2, k1, k2. rewrite (Rabs_pos_eq (cos th)) by lra. match goal with |- ?l = ?r => change (@eq R l r) end. field. lra.
  Qed.
  Lemma reflect_exists : exists Rf, is_power b Rf.
  Proof.
    destruct (weighted b (fun th => 1 * cos th * sin th) 1 Ub) as (J & w & A & B).
    - intros x. apply (cs_cont (fun _ => 1)). apply continuity_pt_const. intros u z. reflexivity.
    - lra.
    - intros x. apply cs_le. rewrite Rabs_R1. lra.
    - exists w, J. split; [|exact B]. intros ph. eapply int_ext; [|apply A]. intros th. cbv beta. ring.
  Qed.
End Exists.
