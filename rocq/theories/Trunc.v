(** The documented interaction integral for continuous distribution functions: it exists, and it
    depends continuously on the functions.  Nothing here refers to the model of the program. *)
From Coquelicot Require Import Coquelicot.
From Verif Require Import ExpInt AzInt LegFacts.
From Coq Require Import Lra Lia.
From Verif Require Import SpecScat SpecExp SpecInt FnInt Flip.
Open Scope R_scope.

(** ** The weight is bounded *)
Lemma sq_le_exp s : 0 <= s -> s * s <= exp s.
Proof.
  intros H. assert (E : 1 + s / 4 <= exp (s / 4)) by (apply exp_ineq1_le).
  assert (A : s <= exp (s / 4) * exp (s / 4)).
  { apply Rle_trans with ((1 + s / 4) * (1 + s / 4)); [pose proof (Rle_0_sqr (1 - s / 4)) as X; unfold Rsqr in X; lra|].
    apply Rmult_le_compat; lra. }
  replace (exp s) with ((exp (s / 4) * exp (s / 4)) * (exp (s / 4) * exp (s / 4))) by (rewrite <- !exp_plus; f_equal; field).
  apply Rmult_le_compat; lra.
Qed.
Definition g_exp (tau u : R) : R := exp (- tau / u).
Definition dg_exp (tau u : R) : R := tau / (u * u) * exp (- tau / u).
Lemma g_derive tau u : 0 < u -> is_derive (g_exp tau) u (dg_exp tau u).
Proof. intros H. unfold g_exp, dg_exp. auto_derive; [lra|]. unfold Rdiv. field_simplify; [|lra|lra]. f_equal. Qed.
Lemma dg_bound tau u : 0 < tau -> 0 < u -> 0 <= dg_exp tau u <= / tau.
Proof.
  intros Ht Hu. unfold dg_exp. set (s := tau / u). assert (S : 0 < s) by (apply Rdiv_lt_0_compat; lra).
  replace (- tau / u) with (- s) by (unfold s; field; lra). rewrite exp_Ropp. pose proof (exp_pos s) as P.
  replace (tau / (u * u) * / exp s) with (s * s / exp s * / tau) by (unfold s in *; field; repeat split; lra).
  pose proof (Rinv_0_lt_compat _ Ht) as Q. pose proof (sq_le_exp s ltac:(lra)) as X.
  assert (0 <= s * s / exp s <= 1).
  { split; [apply Rmult_le_pos; [nra|left; now apply Rinv_0_lt_compat]|]. apply Rmult_le_reg_r with (exp s); [assumption|]. unfold Rdiv. rewrite Rmult_assoc, Rinv_l by lra. lra. }
  split; [apply Rmult_le_pos; lra|]. rewrite <- (Rmult_1_l (/ tau)) at 2. apply Rmult_le_compat_r; lra.
Qed.
(** mean value *)
Lemma slope_bound tau u v : 0 < tau -> 0 < u -> 0 < v -> Rabs (g_exp tau v - g_exp tau u) <= / tau * Rabs (v - u).
Proof.
  intros Ht Hu Hv.
  assert (D : forall x, Rmin u v <= x <= Rmax u v -> is_derive (g_exp tau) x (dg_exp tau x)).
  { intros x Hx. apply g_derive. apply Rlt_le_trans with (Rmin u v); [now apply Rmin_glb_lt|lra]. }
  destruct (MVT_gen (g_exp tau) u v (dg_exp tau)) as (c & Hc & E).
  - intros x Hx. apply D. lra.
  - intros x Hx. apply continuity_pt_filterlim. apply (ex_derive_continuous (g_exp tau)). eexists. now apply D.
  - rewrite E, Rabs_mult. assert (0 < c) by (apply Rlt_le_trans with (Rmin u v); [now apply Rmin_glb_lt|lra]).
    pose proof (dg_bound tau c Ht ltac:(assumption)) as B. rewrite (Rabs_pos_eq (dg_exp tau c)) by lra. apply Rmult_le_compat_r; [apply Rabs_pos|lra].
Qed.
Lemma weight_le mu0 tau mu : 0 < mu0 -> 0 < tau -> 0 < mu -> weight mu0 tau mu <= mu * / tau.
Proof.
  intros H0 Ht Hm. pose proof (Rinv_0_lt_compat _ Ht) as Q. unfold weight. destruct (Req_dec mu0 mu) as [->|N].
  - rewrite (Rminus_eq_0 (exp _)), Rmult_0_r. nra.
  - pose proof (slope_bound tau mu mu0 Ht Hm H0) as B. unfold g_exp in B.
    set (d := exp (- tau / mu0) - exp (- tau / mu)) in *. eapply Rle_trans; [apply Rle_abs|].
    unfold Rdiv. rewrite !Rabs_mult, (Rabs_pos_eq mu) by lra. rewrite Rmult_assoc. apply Rmult_le_compat_l; [lra|].
    rewrite Rabs_inv. assert (P : 0 < Rabs (mu0 - mu)) by (apply Rabs_pos_lt; lra).
    apply Rmult_le_reg_l with (Rabs (mu0 - mu)); [assumption|]. rewrite <- Rmult_assoc, Rinv_r, Rmult_1_l by lra. lra.
Qed.
Lemma weight_abs mu0 tau mu : 0 < mu0 -> 0 < tau -> 0 <= mu <= 1 -> Rabs (weight mu0 tau mu) <= / tau.
Proof.
  intros H0 Ht Hm. pose proof (Rinv_0_lt_compat _ Ht) as Q. destruct (Req_dec mu 0) as [->|N].
  - unfold weight. unfold Rdiv. rewrite !Rmult_0_l, Rabs_R0. lra.
  - rewrite Rabs_pos_eq by (apply weight_nonneg; lra). pose proof (weight_le mu0 tau mu H0 Ht ltac:(lra)). nra.
Qed.

(** the weight, made continuous at 0 and at mu0 *)
Definition wc (mu0 tau mu : R) : R :=
  if Rle_dec mu 0 then 0 else if Req_EM_T mu mu0 then mu0 * dg_exp tau mu0 else weight mu0 tau mu.
Lemma wc_weight mu0 tau mu : mu <> mu0 -> 0 < mu -> wc mu0 tau mu = weight mu0 tau mu.
Proof. intros H P. unfold wc. destruct (Rle_dec mu 0); [lra|]. destruct (Req_EM_T mu mu0); [contradiction|reflexivity]. Qed.
Lemma cont_ext_loc (f g : R -> R) x : locally x (fun y => g y = f y) -> continuous g x -> continuous f x.
Proof. intros H C. apply (continuous_ext_loc f g x); assumption. Qed.
Lemma wc_cont mu0 tau mu : 0 < mu0 -> 0 < tau -> 0 <= mu -> continuous (wc mu0 tau) mu.
Proof.
  intros H0 Ht Hm. destruct (Req_dec mu 0) as [->|N0]; [|destruct (Req_dec mu mu0) as [->|N1]].
  - apply continuity_pt_filterlim. intros eps He. exists (eps * tau). split; [apply Rmult_gt_0_compat; lra|].
    intros y [_ Hy]. unfold dist in *. simpl in *. unfold R_dist in *. rewrite Rminus_0_r in Hy.
    assert (E0 : wc mu0 tau 0 = 0) by (unfold wc; destruct (Rle_dec 0 0); [reflexivity|lra]). rewrite E0, Rminus_0_r.
    unfold wc. destruct (Rle_dec y 0); [rewrite Rabs_R0; lra|].
    assert (B : 0 <= (if Req_EM_T y mu0 then mu0 * dg_exp tau mu0 else weight mu0 tau y) <= y * / tau).
    { destruct (Req_EM_T y mu0) as [->|].
      - pose proof (dg_bound tau mu0 Ht H0). split; [apply Rmult_le_pos; lra|apply Rmult_le_compat_l; lra].
      - split; [apply weight_nonneg; lra|apply weight_le; lra]. }
    rewrite Rabs_pos_eq by lra. eapply Rle_lt_trans; [apply B|]. rewrite Rabs_pos_eq in Hy by lra.
    apply Rmult_lt_reg_r with tau; [assumption|]. rewrite Rmult_assoc, Rinv_l by lra. lra.
  - (* at mu0: difference quotient *)
    apply (cont_ext_loc _ (fun y => y * (if Req_EM_T y mu0 then dg_exp tau mu0 else (g_exp tau y - g_exp tau mu0) / (y - mu0)))).
    { exists (mkposreal mu0 H0). intros y Hy. unfold ball in Hy. simpl in Hy. unfold AbsRing_ball, abs, minus, plus, opp in Hy. simpl in Hy.
      apply Rabs_def2 in Hy. unfold wc. destruct (Rle_dec y 0); [lra|]. destruct (Req_EM_T y mu0) as [->|Ny]; [reflexivity|].
      unfold weight, g_exp. field. lra. }
    apply (cont_mul (fun y => y) (fun y => if Req_EM_T y mu0 then dg_exp tau mu0 else (g_exp tau y - g_exp tau mu0) / (y - mu0))); [apply continuous_id|].
    pose proof (g_derive tau mu0 H0) as D. apply is_derive_Reals in D.
    apply continuity_pt_filterlim. intros eps He. destruct (D eps He) as [dl Hd]. exists dl. split; [apply cond_pos|].
    intros y [[_ Ny] Hy]. unfold dist in *. simpl in *. unfold R_dist in *.
    destruct (Req_EM_T mu0 mu0) as [_|X]; [|contradiction]. destruct (Req_EM_T y mu0) as [E|_]; [congruence|].
    specialize (Hd (y - mu0) ltac:(lra) Hy). replace (mu0 + (y - mu0)) with y in Hd by ring. exact Hd.
  - apply (cont_ext_loc _ (weight mu0 tau)).
    { assert (P : 0 < Rmin mu (Rabs (mu - mu0))) by (apply Rmin_glb_lt; [lra|apply Rabs_pos_lt; lra]).
      exists (mkposreal _ P). intros y Hy. unfold ball in Hy. simpl in Hy. unfold AbsRing_ball, abs, minus, plus, opp in Hy. simpl in Hy.
      symmetry. apply wc_weight.
      - intros ->. pose proof (Rmin_r mu (Rabs (mu - mu0))). rewrite <- Rabs_Ropp in Hy. replace (- (mu0 + - mu)) with (mu - mu0) in Hy by ring. lra.
      - pose proof (Rmin_l mu (Rabs (mu - mu0))). assert (Rabs (y + - mu) < mu) as X by lra. apply Rabs_def2 in X. lra. }
    apply edc. unfold weight. auto_derive. repeat split; lra.
Qed.

(** ** The azimuth integral *)
Definition unit_g (a : gen) : Prop := Rabs (ga0 a) <= 1 /\ Rabs (ga1 a) <= 1 /\ Rabs (ga2 a) <= 1.
Lemma unit_angle a t0 tex p0 pex : unit_g a -> -1 <= cos_angle a t0 tex p0 pex <= 1.
Proof. intros (A & B & C). apply Rabs_le_between. now apply cos_angle_le. Qed.
(** continuous on [-1, 1] *)
Definition cont_on (P : R -> R) : Prop := forall x, -1 <= x <= 1 -> continuity_pt P x.
Lemma cont_bound P : cont_on P -> exists M, 0 <= M /\ forall x, -1 <= x <= 1 -> Rabs (P x) <= M.
Proof.
  intros C. destruct (continuity_ab_maj (fun x => Rabs (P x)) (-1) 1 ltac:(lra)) as (m & Hm & _).
  { intros c Hc. apply (continuity_pt_comp P Rabs); [now apply C|apply Rcontinuity_abs]. }
  exists (Rabs (P m)). split; [apply Rabs_pos|exact Hm].
Qed.
Lemma cont_unif P : cont_on P -> forall eps, 0 < eps -> exists d, 0 < d /\
  forall x y, -1 <= x <= 1 -> -1 <= y <= 1 -> Rabs (x - y) < d -> Rabs (P x - P y) < eps.
Proof.
  intros C eps He. destruct (Heine_cor2 (f := P) (a := -1) (b := 1) C (mkposreal eps He)) as [d Hd]. exists d. split; [apply cond_pos|].
  intros x y Hx Hy Hxy. exact (Hd x y Hx Hy Hxy).
Qed.
Lemma cos_angle_lip2 a t th th' p ph : unit_g a ->
  Rabs (cos_angle a t th p ph - cos_angle a t th' p ph) <= Rabs (cos th - cos th') + Rabs (sin th - sin th').
Proof.
  intros (A0 & A1 & A2). unfold cos_angle.
  replace (_ - _) with (ga0 a * cos t * (cos th - cos th') + sin t * (ga1 a * cos p * cos ph + ga2 a * sin p * sin ph) * (sin th - sin th')) by ring.
  assert (C1 : Rabs (cos t) <= 1) by (apply Rabs_le, COS_bound). assert (S1 : Rabs (sin t) <= 1) by (apply Rabs_le, SIN_bound).
  assert (I : Rabs (ga1 a * cos p * cos ph + ga2 a * sin p * sin ph) <= 1).
  { pose proof (cos_angle_le (mk_gen 0 (ga1 a) (ga2 a)) (PI / 2) (PI / 2) p ph) as X. cbn [ga0 ga1 ga2] in X. unfold cos_angle in X. cbn [ga0 ga1 ga2] in X.
    rewrite sin_PI2, cos_PI2 in X. rewrite Rabs_R0 in X. replace (0 * 0 * 0 + 1 * 1 * (ga1 a * cos p * cos ph + ga2 a * sin p * sin ph)) with (ga1 a * cos p * cos ph + ga2 a * sin p * sin ph) in X by ring.
    apply X; lra. }
  eapply Rle_trans; [apply Rabs_triang|]. rewrite !Rabs_mult.
  assert (M : forall u v w, Rabs u <= 1 -> Rabs v <= 1 -> 0 <= w -> Rabs u * Rabs v * w <= w).
  { intros u v w Hu Hv Hw. pose proof (Rabs_pos u). pose proof (Rabs_pos v). assert (Rabs u * Rabs v <= 1 * 1) by (apply Rmult_le_compat; assumption). nra. }
  apply Rplus_le_compat; apply M; try assumption; apply Rabs_pos.
Qed.
Lemma cos_angle_sym a t0 tex p0 pex : cos_angle a t0 tex p0 pex = cos_angle a tex t0 pex p0.
Proof. unfold cos_angle. ring. Qed.
Lemma cos_angle_lip1 a t th th' p ph : unit_g a ->
  Rabs (cos_angle a th t ph p - cos_angle a th' t ph p) <= Rabs (cos th - cos th') + Rabs (sin th - sin th').
Proof. intros U. rewrite !(cos_angle_sym a _ t). now apply cos_angle_lip2. Qed.

Definition of_angle (P : R -> R) (a : gen) (t0 tex p0 pex : R) : R := P (cos_angle a t0 tex p0 pex).

(** functions of an intermediate direction (theta, phi) that are continuous in phi, bounded, and
    uniformly continuous in (cos theta, sin theta) *)
Definition nice (v : R -> R -> R) : Prop :=
  (forall th ph, continuous (fun ph => v th ph) ph) /\ (exists M, 0 <= M /\ forall th ph, Rabs (v th ph) <= M) /\
  (forall eps, 0 < eps -> exists d, 0 < d /\ forall th th' ph, Rabs (cos th - cos th') < d -> Rabs (sin th - sin th') < d -> Rabs (v th ph - v th' ph) <= eps).
Lemma nice_fst P a t p : cont_on P -> unit_g a -> nice (fun th ph => of_angle P a t th p ph).
Proof.
  intros C U. unfold of_angle. split; [|split].
  - intros th ph. apply (continuous_comp (fun ph => cos_angle a t th p ph) P).
    + apply edc. unfold cos_angle. auto_derive. exact I.
    + apply continuity_pt_filterlim. apply C. now apply unit_angle.
  - destruct (cont_bound P C) as (M & M0 & B). exists M. split; [assumption|]. intros th ph. now apply B, unit_angle.
  - intros eps He. destruct (cont_unif P C eps He) as (d & D & K). exists (d / 2). split; [lra|]. intros th th' ph Hc Hs. left.
    apply K; try (now apply unit_angle). eapply Rle_lt_trans; [now apply cos_angle_lip2|lra].
Qed.
Lemma nice_ext v v' : (forall th ph, v th ph = v' th ph) -> nice v -> nice v'.
Proof.
  intros E (A & (M & M0 & B) & C). split; [|split].
  - intros th ph. apply (continuous_ext (fun ph => v th ph)); [intros; apply E|apply A].
  - exists M. split; [assumption|]. intros th ph. rewrite <- E. apply B.
  - intros eps He. destruct (C eps He) as (d & D & K). exists d. split; [assumption|]. intros th th' ph Hc Hs. rewrite <- !E. now apply K.
Qed.
Lemma nice_snd P a t p : cont_on P -> unit_g a -> nice (fun th ph => of_angle P a th t ph p).
Proof.
  intros C U. eapply nice_ext; [|exact (nice_fst P a t p C U)]. intros th ph. unfold of_angle. cbv beta. f_equal. apply cos_angle_sym.
Qed.
Lemma nice_const c : nice (fun _ _ => c).
Proof.
  split; [|split].
  - intros th ph. apply continuous_const.
  - exists (Rabs c). split; [apply Rabs_pos|]. intros. apply Rle_refl.
  - intros eps He. exists 1. split; [lra|]. intros. rewrite Rminus_diag_eq, Rabs_R0 by reflexivity. lra.
Qed.
Lemma nice_lin k v v' : nice v -> nice v' -> nice (fun th ph => k * v th ph + v' th ph).
Proof.
  intros (A & (M & M0 & B) & C) (A' & (M' & M0' & B') & C'). split; [|split].
  - intros th ph. apply (continuous_plus (fun ph => k * v th ph) (fun ph => v' th ph)); [|apply A'].
    apply (cont_mul (fun _ => k) (fun ph => v th ph)); [apply continuous_const|apply A].
  - pose proof (Rabs_pos k). exists (Rabs k * M + M'). split; [nra|]. intros th ph. eapply Rle_trans; [apply Rabs_triang|]. rewrite Rabs_mult.
    specialize (B th ph). specialize (B' th ph). apply Rplus_le_compat; [|assumption]. now apply Rmult_le_compat_l.
  - intros eps He. pose proof (Rabs_pos k) as Hk. set (e := eps / (Rabs k + 1)).
    assert (Pe : 0 < e) by (apply Rdiv_lt_0_compat; lra).
    destruct (C e Pe) as (d1 & D1 & K1). destruct (C' e Pe) as (d2 & D2 & K2). exists (Rmin d1 d2). split; [now apply Rmin_glb_lt|].
    intros th th' ph Hc Hs. pose proof (Rmin_l d1 d2). pose proof (Rmin_r d1 d2).
    replace (_ - _) with (k * (v th ph - v th' ph) + (v' th ph - v' th' ph)) by ring.
    eapply Rle_trans; [apply Rabs_triang|]. rewrite Rabs_mult.
    apply Rle_trans with (Rabs k * e + e); [|right; unfold e; field; lra].
    apply Rplus_le_compat; [apply Rmult_le_compat_l; [assumption|]|]; [apply K1|apply K2]; lra.
Qed.
Lemma prod_close MP MB x y u v e1 e2 : Rabs x <= MP -> Rabs v <= MB -> Rabs (x - y) <= e1 -> Rabs (u - v) <= e2 ->
  Rabs (x * u - y * v) <= MP * e2 + MB * e1.
Proof.
  intros Hx Hv Hxy Huv. replace (x * u - y * v) with (x * (u - v) + (x - y) * v) by ring.
  eapply Rle_trans; [apply Rabs_triang|]. rewrite !Rabs_mult.
  pose proof (Rabs_pos x). pose proof (Rabs_pos v). pose proof (Rabs_pos (u - v)). pose proof (Rabs_pos (x - y)).
  assert (Rabs x * Rabs (u - v) <= MP * e2) by (apply Rmult_le_compat; assumption).
  assert (Rabs (x - y) * Rabs v <= e1 * MB) by (apply Rmult_le_compat; assumption). lra.
Qed.

Section Exact.
  Context (v b : R -> R -> R).
  Hypothesis (Nv : nice v) (Nb : nice b).
  Let G (th ph : R) : R := v th ph * b th ph.
  Let H (th : R) : R := RInt (fun ph => G th ph) 0 (2 * PI).
  Lemma G_cont th ph : continuous (fun ph => G th ph) ph.
  Proof. unfold G. apply (cont_mul (fun ph => v th ph) (fun ph => b th ph)); [apply Nv|apply Nb]. Qed.
  Lemma G_int th : ex_RInt (fun ph => G th ph) 0 (2 * PI).
  Proof. apply (ex_RInt_continuous (fun ph => G th ph)). intros z _. apply G_cont. Qed.

  Lemma H_unif eps : 0 < eps -> exists d, 0 < d /\ forall th th',
    Rabs (cos th - cos th') < d -> Rabs (sin th - sin th') < d -> Rabs (H th - H th') <= eps.
  Proof.
    intros He. destruct Nv as (_ & (MP & P0 & BP) & CP). destruct Nb as (_ & (MB & B0 & BB) & CB). pose proof PI_RGT_0 as HPI.
    set (e := eps / (2 * PI * (MP + MB + 1))).
    assert (Pe : 0 < e) by (apply Rdiv_lt_0_compat; [assumption|apply Rmult_lt_0_compat; lra]).
    destruct (CP e Pe) as (d1 & D1 & U1). destruct (CB e Pe) as (d2 & D2 & U2).
    exists (Rmin d1 d2). assert (Dm : 0 < Rmin d1 d2) by now apply Rmin_glb_lt. split; [lra|]. intros th th' Hc Hs.
    pose proof (Rmin_l d1 d2). pose proof (Rmin_r d1 d2).
    assert (Cl : forall ph, Rabs (G th ph - G th' ph) <= (MP + MB) * e).
    { intros ph. unfold G. replace ((MP + MB) * e) with (MP * e + MB * e) by ring. apply prod_close; [apply BP|apply BB|apply U1; lra|apply U2; lra]. }
    unfold H. rewrite <- (RInt_minus (fun ph => G th ph) (fun ph => G th' ph)) by apply G_int.
    eapply Rle_trans; [apply (abs_RInt_le_const (fun ph => minus (G th ph) (G th' ph)) 0 (2 * PI) ((MP + MB) * e))|].
    - lra.
    - apply (ex_RInt_minus (fun ph => G th ph) (fun ph => G th' ph)); apply G_int.
    - intros ph _. exact (Cl ph).
    - rewrite Rminus_0_r. apply Rle_trans with (2 * PI * ((MP + MB + 1) * e)).
      + apply Rmult_le_compat_l; [lra|]. apply Rmult_le_compat_r; lra.
      + right. unfold e. field. split; lra.
  Qed.

  (** [cl mu]: mu clipped to [0, 1] *)
  Let cl (mu : R) : R := Rmax 0 (Rmin mu 1).
  Lemma cl_in mu : 0 <= cl mu <= 1.
  Proof. unfold cl. split; [apply Rmax_l|]. apply Rmax_lub; [lra|apply Rmin_r]. Qed.
  Lemma cl_id mu : 0 <= mu <= 1 -> cl mu = mu.
  Proof. intros Hm. unfold cl. rewrite Rmin_left by lra. now rewrite Rmax_right by lra. Qed.
  Lemma cl_cont mu : continuous cl mu.
  Proof.
    apply continuity_pt_filterlim. intros eps He. exists eps. split; [assumption|]. intros y [_ Hy]. unfold dist in *. simpl in *. unfold R_dist in *.
    eapply Rle_lt_trans; [|exact Hy]. unfold cl, Rmax, Rmin. repeat destruct (Rle_dec _ _); unfold Rabs; repeat destruct (Rcase_abs _); lra.
  Qed.
  Let sq (m : R) : R := sqrt (1 - m * m).
  Lemma sq_cont mu : continuous (fun mu => sq (cl mu)) mu.
  Proof.
    apply (continuous_comp cl sq); [apply cl_cont|]. unfold sq. apply (continuous_comp (fun m => 1 - m * m) sqrt).
    - apply edc. auto_derive. exact I.
    - apply continuous_sqrt.
  Qed.
  Lemma h_cont mu : continuous (fun mu => H (acos (cl mu))) mu.
  Proof.
    apply continuity_pt_filterlim. intros eps He. destruct (H_unif (eps / 2) ltac:(lra)) as (d & Hd & U).
    pose proof (cl_cont mu) as C1. apply continuity_pt_filterlim in C1. destruct (C1 d Hd) as (d1 & Hd1 & K1).
    pose proof (sq_cont mu) as C2. apply continuity_pt_filterlim in C2. destruct (C2 d Hd) as (d2 & Hd2 & K2).
    exists (Rmin d1 d2). split; [now apply Rmin_glb_lt|]. intros y [Dy Hy].
    assert (K1' := K1 y (conj Dy (Rlt_le_trans _ _ _ Hy (Rmin_l _ _)))). assert (K2' := K2 y (conj Dy (Rlt_le_trans _ _ _ Hy (Rmin_r _ _)))).
    unfold dist in *. simpl in *. unfold R_dist in *.
    apply Rle_lt_trans with (eps / 2); [|lra]. pose proof (cl_in y). pose proof (cl_in mu). apply U.
    - rewrite !cos_acos by lra. exact K1'.
    - rewrite !sin_acos by lra. exact K2'.
  Qed.

  Context (mu0 tau : R) (H0 : 0 < mu0 < 1) (Ht : 0 < tau).
  Lemma exact_F : exists F, is_F mu0 tau v b F.
  Proof.
    set (k := fun mu => wc mu0 tau mu * H (acos (cl mu))).
    assert (Ck : forall z, 0 <= z -> continuous k z).
    { intros z Hz. apply (cont_mul (wc mu0 tau) (fun mu => H (acos (cl mu)))); [apply wc_cont; lra|apply h_cont]. }
    assert (E1 : ex_RInt k 0 mu0) by (apply (ex_RInt_continuous k); intros z Hz; rewrite Rmin_left in Hz by lra; apply Ck; lra).
    assert (E2 : ex_RInt k mu0 1) by (apply (ex_RInt_continuous k); intros z Hz; rewrite Rmin_left in Hz by lra; apply Ck; lra).
    assert (Ek : forall mu, 0 < mu < 1 -> mu <> mu0 -> k mu = weight mu0 tau mu * H (acos mu)).
    { intros mu Hm N. unfold k. rewrite wc_weight by lra. now rewrite cl_id by lra. }
    destruct E1 as [A1 I1], E2 as [A2 I2]. exists (plus A1 A2). unfold is_F. split; [exact G_int|].
    apply (is_RInt_Chasles _ 0 mu0 1).
    - apply (is_RInt_ext k); [|exact I1]. intros mu Hm. rewrite Rmin_left, Rmax_right in Hm by lra. rewrite Ek by lra. reflexivity.
    - apply (is_RInt_ext k); [|exact I2]. intros mu Hm. rewrite Rmin_left, Rmax_right in Hm by lra. rewrite Ek by lra. reflexivity.
  Qed.
End Exact.

(** ** The integral depends continuously on the distribution functions *)
Lemma F_close mu0 tau p b p' b' F F' e : 0 < mu0 -> 0 < tau -> (forall th ph, Rabs (p th ph * b th ph - p' th ph * b' th ph) <= e) ->
  is_F mu0 tau p b F -> is_F mu0 tau p' b' F' -> Rabs (F - F') <= / tau * (2 * PI * e).
Proof.
  intros H0 Ht Cl [E I] [E' I']. pose proof PI_RGT_0 as HP. pose proof (Rinv_0_lt_compat _ Ht) as Q.
  pose proof (is_RInt_minus _ _ _ _ _ _ I I') as D. apply (is_RInt_unique (V := R_CompleteNormedModule)) in D.
  assert (D' : F - F' = RInt (fun y => minus (weight mu0 tau y * RInt (fun ph => p (acos y) ph * b (acos y) ph) 0 (2 * PI)) (weight mu0 tau y * RInt (fun ph => p' (acos y) ph * b' (acos y) ph) 0 (2 * PI))) 0 1) by (symmetry; exact D). rewrite D'. clear D D'.
  assert (In : forall th, Rabs (RInt (fun ph => p th ph * b th ph) 0 (2 * PI) - RInt (fun ph => p' th ph * b' th ph) 0 (2 * PI)) <= 2 * PI * e).
  { intros th. change (Rabs (minus (RInt (fun ph => p th ph * b th ph) 0 (2 * PI)) (RInt (fun ph => p' th ph * b' th ph) 0 (2 * PI))) <= 2 * PI * e).
    rewrite <- (RInt_minus (fun ph => p th ph * b th ph) (fun ph => p' th ph * b' th ph)) by auto.
    eapply Rle_trans; [apply (abs_RInt_le_const _ 0 (2 * PI) e); [lra| |intros ph _; apply Cl]|rewrite Rminus_0_r; lra].
    apply (ex_RInt_minus (fun ph => p th ph * b th ph) (fun ph => p' th ph * b' th ph)); auto. }
  eapply Rle_trans; [apply (abs_RInt_le_const _ 0 1 (/ tau * (2 * PI * e)))|rewrite Rminus_0_r; lra].
  - lra.
  - apply (ex_RInt_minus (V := R_NormedModule)); eexists; eassumption.
  - intros mu Hm. unfold minus, plus, opp; simpl.
    replace (_ + - _) with (weight mu0 tau mu * (RInt (fun ph => p (acos mu) ph * b (acos mu) ph) 0 (2 * PI) - RInt (fun ph => p' (acos mu) ph * b' (acos mu) ph) 0 (2 * PI))) by ring.
    rewrite Rabs_mult. apply Rmult_le_compat; try apply Rabs_pos; [apply weight_abs; lra|apply In].
Qed.
