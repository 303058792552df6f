(** Bounds and series of Legendre polynomials: |P_n| <= 1 on [-1,1], the generating function, and the
    Henyey-Greenstein series with an explicit error bound.  No part of the program is modelled here. *)
From Coq Require Import Reals Lra Lia.
From Verif Require Import SpecScat SpecExp.
From Coquelicot Require Import Coquelicot.
From Verif Require Import ExpInt LegFacts.
Open Scope R_scope.

(** ** derivative *)
Lemma dval (f : R -> R) (x l : R) : is_derive f x l -> Derive (fun y : R => f y) x = l.
Proof. apply is_derive_unique. Qed.
Fixpoint legD (n : nat) (x : R) : R := match n with O => 0 | S m => x * legD m x + INR (S m) * legP m x end.
Lemma legD_S n x : legD (S n) x = x * legD n x + (INR n + 1) * legP n x.
Proof. cbn [legD]. now rewrite S_INR. Qed.
Lemma legD_up n x : x * legD (S n) x - legD n x = (INR n + 1) * legP (S n) x.
Proof.
  induction n as [|n IH]; [simpl; rewrite legP_0, legP_1; ring|].
  pose proof (bonnet n x) as B. pose proof (legD_S n x) as E0. rewrite (legD_S (S n) x), S_INR.
  replace (x * (x * legD (S n) x + (INR n + 1 + 1) * legP (S n) x) - legD (S n) x)
    with (x * (x * legD (S n) x - legD n x) + x * legD n x + (INR n + 2) * x * legP (S n) x - legD (S n) x) by ring.
  rewrite IH, E0. lra.
Qed.
Lemma legP_derive n : forall x, is_derive (legP n) x (legD n x).
Proof.
  assert (H : forall x, is_derive (legP n) x (legD n x) /\ is_derive (legP (S n)) x (legD (S n) x)).
  { induction n as [|n IH]; intros x.
    - split; [apply (is_derive_const 1)|]. replace (legD 1 x) with 1 by (rewrite legD_S; simpl; rewrite legP_0; ring). apply (is_derive_id x).
    - destruct (IH x) as [A B]. split; [exact B|].
      apply (is_derive_ext (fun x => ((2 * INR n + 3) * x * legP (S n) x - (INR n + 1) * legP n x) / (INR n + 2))); [intros t; symmetry; apply legP_SS|].
      pose proof (nz2 n) as NZ.
      replace (legD (S (S n)) x) with (((2 * INR n + 3) * (1 * legP (S n) x + x * legD (S n) x) - (INR n + 1) * legD n x) / (INR n + 2)).
      + auto_derive; [repeat split; eexists; eassumption|]. rewrite (dval (legP n) _ _ A), (dval (legP (S n)) _ _ B). field. assumption.
      + rewrite (legD_S (S n)), S_INR. pose proof (legD_up n x) as U.
        apply (Rmult_eq_reg_r (INR n + 2)); [|assumption]. unfold Rdiv. rewrite Rmult_assoc, Rinv_l, Rmult_1_r by assumption.
        replace ((2 * INR n + 3) * (1 * legP (S n) x + x * legD (S n) x) - (INR n + 1) * legD n x)
          with ((2 * INR n + 3) * legP (S n) x + (INR n + 2) * x * legD (S n) x + (INR n + 1) * (x * legD (S n) x - legD n x)) by ring.
        rewrite U. ring. }
  intros x. apply H.
Qed.
Lemma legD_ex n : forall x, ex_derive (legD n) x.
Proof.
  induction n as [|n IH]; intros x; [apply (ex_derive_const 0)|].
  apply (ex_derive_ext (fun x => x * legD n x + (INR n + 1) * legP n x)); [intros t; symmetry; apply legD_S|].
  auto_derive. repeat split; [apply IH|eexists; apply legP_derive].
Qed.
Lemma legD_cont n x : continuous (legD n) x. Proof. apply edc, legD_ex. Qed.
(** Legendre's equation *)
Lemma leg_w n x : (1 - x * x) * legD n x = (INR n + 1) * (x * legP n x - legP (S n) x).
Proof.
  pose proof (legD_up n x) as U. pose proof (legD_S n x) as E. rewrite E in U.
  replace ((1 - x * x) * legD n x) with (- (x * (x * legD n x + (INR n + 1) * legP n x) - legD n x) + (INR n + 1) * x * legP n x) by ring.
  rewrite U. ring.
Qed.
Lemma leg_ode n x : is_derive (fun x => (1 - x * x) * legD n x) x (- (INR n * (INR n + 1)) * legP n x).
Proof.
  apply (is_derive_ext (fun x => (INR n + 1) * (x * legP n x - legP (S n) x))); [intros t; symmetry; apply leg_w|].
  auto_derive; [repeat split; eexists; apply legP_derive|].
  rewrite (dval (legP n) _ _ (legP_derive n x)), (dval (legP (S n)) _ _ (legP_derive (S n) x)), legD_S. ring.
Qed.

(** ** |P_n| <= 1 *)
Lemma legP_one n : legP n 1 = 1.
Proof.
  assert (H : legP n 1 = 1 /\ legP (S n) 1 = 1).
  { induction n as [|n [A B]]; [split; reflexivity|]. split; [exact B|]. rewrite legP_SS, A, B. field. apply nz2. }
  apply H.
Qed.
Lemma legP_opp n x : legP n (- x) = (-1) ^ n * legP n x.
Proof.
  assert (H : legP n (- x) = (-1) ^ n * legP n x /\ legP (S n) (- x) = (-1) ^ (S n) * legP (S n) x).
  { induction n as [|n [A B]]; [split; simpl; rewrite ?legP_0, ?legP_1; ring|]. split; [exact B|]. rewrite !legP_SS, A, B. simpl. field. apply nz2. }
  apply H.
Qed.
Definition legF (n : nat) (x : R) : R := INR n * (INR n + 1) * (legP n x * legP n x) + (1 - x * x) * legD n x * legD n x.
Lemma legF_derive n x : is_derive (legF n) x (2 * x * (legD n x * legD n x)).
Proof.
  set (d := Derive (legD n) x). assert (Hd : is_derive (legD n) x d) by (apply Derive_correct, legD_ex).
  assert (W : (- 2 * x) * legD n x + (1 - x * x) * d = - (INR n * (INR n + 1)) * legP n x).
  { pose proof (is_derive_unique _ _ _ (leg_ode n x)) as E. rewrite <- E. symmetry. apply is_derive_unique. auto_derive; [eexists; exact Hd|].
    rewrite (dval (legD n) _ _ Hd). ring. }
  unfold legF. auto_derive.
  - repeat split; match goal with |- context [legP] => apply legP_ex_derive | _ => apply legD_ex end.
  - rewrite (dval (legP n) _ _ (legP_derive n x)), (dval (legD n) _ _ Hd).
    replace (1 - x * x) with (1 - x * x) by ring.
    transitivity (2 * INR n * (INR n + 1) * legP n x * legD n x + legD n x * (2 * ((- 2 * x) * legD n x + (1 - x * x) * d) + 2 * x * legD n x)); [ring|].
    rewrite W. ring.
Qed.

Lemma mvt_mono (f d : R -> R) a b : a <= b -> (forall x, is_derive f x (d x)) -> (forall x, a <= x <= b -> 0 <= d x) -> f a <= f b.
Proof.
  intros H D P. destruct (Req_dec a b) as [->|N]; [lra|].
  destruct (MVT_gen f a b d) as (c & Hc & E).
  - intros x _. apply D.
  - intros x _. apply (derivable_continuous_pt f x). exists (d x). apply is_derive_Reals, D.
  - rewrite Rmin_left, Rmax_right in Hc by lra. specialize (P c Hc).
    assert (0 <= d c * (b - a)) by (apply Rmult_le_pos; lra). lra.
Qed.
Lemma legP_bound n x : Rabs x <= 1 -> Rabs (legP n x) <= 1.
Proof.
  assert (P : forall y, 0 <= y <= 1 -> Rabs (legP n y) <= 1).
  { intros y Hy. destruct n as [|n]; [rewrite legP_0, Rabs_R1; lra|].
    pose proof (mvt_mono (legF (S n)) _ y 1 (proj2 Hy) (legF_derive (S n))) as M.
    assert (K : legF (S n) y <= legF (S n) 1).
    { apply M. intros z Hz. apply Rmult_le_pos; [lra|apply Rle_0_sqr]. }
    unfold legF in K. rewrite (legP_one (S n)) in K. pose proof (pos_INR n) as Z. rewrite S_INR in K.
    set (c := (INR n + 1) * (INR n + 1 + 1)) in *. assert (Pc : 0 < c) by (unfold c; apply Rmult_lt_0_compat; lra).
    assert (0 <= (1 - y * y) * legD (S n) y * legD (S n) y).
    { rewrite Rmult_assoc. apply Rmult_le_pos; [|apply Rle_0_sqr]. assert (y * y <= 1 * 1) by (apply Rmult_le_compat; lra). lra. }
    assert (Q : legP (S n) y * legP (S n) y <= 1).
    { apply (Rmult_le_reg_l c); [assumption|]. lra. }
    apply Rsqr_le_abs_0 in Q || idtac.
    rewrite <- Rabs_R1. apply Rsqr_le_abs_0. unfold Rsqr. lra. }
  intros H. destruct (Rle_lt_dec 0 x) as [G|G].
  - apply P. rewrite Rabs_pos_eq in H by assumption. lra.
  - rewrite <- (Ropp_involutive x), legP_opp, Rabs_mult, pow_1_abs, Rmult_1_l. apply P. rewrite Rabs_left in H by assumption. lra.
Qed.

(** ** the generating function *)
Lemma leg_radius x : Rabs x <= 1 -> Rbar_le (Finite 1) (CV_radius (fun n => legP n x)).
Proof.
  intros H. apply CV_radius_bounded. exists 1. intros n. rewrite pow1, Rmult_1_r. now apply legP_bound.
Qed.
Definition psR (a : nat -> R) (t l : R) : Prop := @is_pseries R_AbsRing R_NormedModule a t l.
Definition incr (a : nat -> R) (n : nat) : R := match n with O => 0 | S m => a m end.
Lemma ps_incr a t l : psR a t l -> psR (incr a) t (t * l).
Proof. intros H. exact (is_pseries_incr_1 a t l H). Qed.
Lemma ps_lin a b t c d la lb : psR a t la -> psR b t lb -> psR (fun n => c * a n + d * b n) t (c * la + d * lb).
Proof.
  intros Ha Hb. apply (is_pseries_scal c a t la (Rmult_comm _ _)) in Ha. apply (is_pseries_scal d b t lb (Rmult_comm _ _)) in Hb.
  exact (is_pseries_plus _ _ _ _ _ Ha Hb).
Qed.
Lemma ps_ext a b t l : (forall n, a n = b n) -> psR a t l -> psR b t l. Proof. intros H. apply (is_pseries_ext a b t l H). Qed.
Lemma ps_unique a t l m : psR a t l -> psR a t m -> l = m.
Proof. intros A B. rewrite <- (is_pseries_unique a t l A). exact (is_pseries_unique a t m B). Qed.
Lemma ps_zero t : psR (fun _ => 0) t 0.
Proof. apply is_pseries_R. apply (is_series_ext (fun _ => 0)); [intros n; symmetry; apply Rmult_0_l|]. apply is_series_Reals. intros e He. exists 0%nat. intros n _. rewrite sum_eq_R0 by reflexivity. now rewrite R_dist_eq. Qed.

Section Gen.
  Context (x : R) (Hx : Rabs x <= 1).
  Let a (n : nat) : R := legP n x.
  Definition genG (t : R) : R := PSeries a t.
  Definition genD (t : R) : R := PSeries (PS_derive a) t.
  Lemma in_radius t : Rabs t < 1 -> Rbar_lt (Finite (Rabs t)) (CV_radius a).
  Proof. intros H. eapply Rbar_lt_le_trans; [|apply leg_radius; assumption]. exact H. Qed.
  Lemma ps_G t : Rabs t < 1 -> psR a t (genG t).
  Proof. intros H. apply PSeries_correct, CV_radius_inside, in_radius, H. Qed.
  Lemma ps_D t : Rabs t < 1 -> psR (fun n => INR (S n) * a (S n)) t (genD t).
  Proof. intros H. apply PSeries_correct. apply ex_pseries_derive, in_radius, H. Qed.
  Lemma gen_ode t : Rabs t < 1 -> (1 + t ^ 2 - 2 * t * x) * genD t = (x - t) * genG t.
  Proof.
    intros H. pose proof (ps_G t H) as G. pose proof (ps_D t H) as D. set (d := fun n => INR (S n) * a (S n)) in *.
    pose proof (ps_incr _ _ _ D) as D1. pose proof (ps_incr _ _ _ D1) as D2. pose proof (ps_incr _ _ _ G) as G1.
    pose proof (ps_lin _ _ _ 1 (- (2 * x)) _ _ D D1) as A1. pose proof (ps_lin _ _ _ 1 1 _ _ A1 D2) as A2.
    pose proof (ps_lin _ _ _ (- x) 1 _ _ G G1) as A3. pose proof (ps_lin _ _ _ 1 1 _ _ A2 A3) as A4. clear A1 A2 A3.
    assert (Z : 1 * (1 * (1 * genD t + - (2 * x) * (t * genD t)) + 1 * (t * (t * genD t))) + 1 * (- x * genG t + 1 * (t * genG t)) = 0).
    { apply (ps_unique _ t _ _ A4). eapply ps_ext; [|apply ps_zero]. intros n. cbv beta. destruct n as [|[|n]].
      - cbn [incr]. unfold d, a. rewrite legP_0, legP_1. simpl. ring.
      - cbn [incr]. unfold d, a. pose proof (bonnet 0 x) as B. rewrite legP_0, legP_1 in *. simpl in *. lra.
      - cbn [incr]. unfold d, a. pose proof (bonnet (S n) x) as B. rewrite !S_INR in *. lra. }
    lra.
  Qed.
  Lemma gen_derive t : Rabs t < 1 -> is_derive genG t (genD t).
  Proof. intros H. apply is_derive_PSeries, in_radius, H. Qed.
  Lemma gen_zero : genG 0 = 1.
  Proof. unfold genG. rewrite PSeries_0. reflexivity. Qed.
  Lemma gen_sqrt_derive t : Rabs t < 1 -> is_derive (fun t => genG t * sqrt (1 + t ^ 2 - 2 * t * x)) t 0.
  Proof.
    intros H. pose proof (hg_den_pos t x H Hx) as P. pose proof (gen_ode t H) as O. pose proof (gen_derive t H) as D.
    pose proof (sqrt_lt_R0 _ P) as PS.
    auto_derive.
    - repeat split; [eexists; exact D|]. replace (1 + t * (t * 1) + - (2 * t * x)) with (1 + t ^ 2 - 2 * t * x) by ring. assumption.
    - rewrite (dval genG _ _ D). replace (1 + t * (t * 1) + - (2 * t * x)) with (1 + t ^ 2 - 2 * t * x) by ring.
      set (S := sqrt (1 + t ^ 2 - 2 * t * x)) in *. assert (SS : S * S = 1 + t ^ 2 - 2 * t * x) by (apply sqrt_sqrt; lra).
      apply (Rmult_eq_reg_r S); [|lra]. rewrite <- SS in O.
      transitivity (S * S * genD t - (x - t) * genG t); [field; lra|]. rewrite O. ring.
  Qed.
  Lemma gen_closed t : Rabs t < 1 -> genG t = / sqrt (1 + t ^ 2 - 2 * t * x).
  Proof.
    intros H. pose proof (hg_den_pos t x H Hx) as P. pose proof (sqrt_lt_R0 _ P) as PS.
    assert (E : genG t * sqrt (1 + t ^ 2 - 2 * t * x) = 1).
    { set (K := fun t => genG t * sqrt (1 + t ^ 2 - 2 * t * x)). change (K t = 1).
      assert (K0 : K 0 = 1). { unfold K. rewrite gen_zero. replace (1 + 0 ^ 2 - 2 * 0 * x) with 1 by ring. rewrite sqrt_1. ring. }
      rewrite <- K0. apply Rabs_def2 in H. destruct H as [H1 H2]. destruct (Rtotal_order t 0) as [L|[->|L]]; [| reflexivity|].
      - apply (eq_is_derive K t 0); [|assumption]. intros u Hu. apply gen_sqrt_derive. apply Rabs_def1; lra.
      - symmetry. apply (eq_is_derive K 0 t); [|assumption]. intros u Hu. apply gen_sqrt_derive. apply Rabs_def1; lra. }
    apply (Rmult_eq_reg_r (sqrt (1 + t ^ 2 - 2 * t * x))); [|lra]. rewrite E, Rinv_l; lra.
  Qed.
  (** the Henyey-Greenstein series *)
  Theorem hg_series t : Rabs t < 1 -> psR (fun n => (2 * INR n + 1) * legP n x) t (hg t x).
  Proof.
    intros H. pose proof (hg_den_pos t x H Hx) as P. pose proof (sqrt_lt_R0 _ P) as PS.
    pose proof (ps_lin _ _ _ 1 2 _ _ (ps_G t H) (ps_incr _ _ _ (ps_D t H))) as A.
    assert (E : 1 * genG t + 2 * (t * genD t) = hg t x).
    { pose proof (gen_ode t H) as O. rewrite (gen_closed t H) in *. unfold hg, pow32.
      set (D := 1 + t ^ 2 - 2 * t * x) in *. set (S := sqrt D) in *. assert (SS : S * S = D) by (apply sqrt_sqrt; lra).
      assert (G' : genD t = (x - t) * / S / D) by (apply (Rmult_eq_reg_l D); [|lra]; rewrite O; field; lra).
      rewrite G'. apply (Rmult_eq_reg_r (D * S)); [|apply Rmult_integral_contrapositive; lra].
      transitivity (D + 2 * t * (x - t)); [field; lra|]. unfold D. field. split; [fold S; lra|fold D; lra]. }
    rewrite <- E. eapply ps_ext; [|exact A]. intros n. cbv beta. unfold a. destruct n as [|n]; [simpl; ring|]. cbn [incr]. rewrite !S_INR. ring.
  Qed.
End Gen.

(** ** partial sums and the error bound *)
(** |t|^N ((2N+1)/(1-|t|) + 2|t|/(1-|t|)^2) *)
Definition hg_tail (t : R) (N : nat) : R := Rabs t ^ N * ((2 * INR N + 1) / (1 - Rabs t) + 2 * Rabs t / (1 - Rabs t) ^ 2).
Definition hg_coef (t : R) (k : nat) : R := (2 * INR k + 1) * t ^ k.
Lemma leg_series_sum c n x : leg_series c (S n) x = sum_n (fun k => c k * legP k x) n.
Proof. induction n as [|n IH]; [rewrite sum_O; simpl; ring|]. rewrite sum_Sn, <- IH. reflexivity. Qed.
Lemma hg_lim t x : Rabs t < 1 -> Rabs x <= 1 -> is_lim_seq (fun n => leg_series (hg_coef t) n x) (hg t x).
Proof.
  intros Ht Hx. apply is_lim_seq_incr_1. pose proof (hg_series x Hx t Ht) as H. apply is_pseries_R in H.
  unfold is_series in H. eapply is_lim_seq_ext; [|exact H]. intros n. rewrite leg_series_sum. apply sum_n_ext. intros k. unfold hg_coef. match goal with |- ?u = ?v => change (u = v :> R) end. ring.
Qed.
Lemma hg_tail_step t N : Rabs t < 1 -> hg_tail t N - hg_tail t (S N) = (2 * INR N + 1) * Rabs t ^ N.
Proof. intros H. unfold hg_tail. rewrite S_INR. simpl. field. lra. Qed.
Lemma hg_tail_pos t N : Rabs t < 1 -> 0 <= hg_tail t N.
Proof.
  intros H. unfold hg_tail. pose proof (Rabs_pos t). pose proof (pos_INR N). apply Rmult_le_pos; [apply pow_le; assumption|].
  apply Rplus_le_le_0_compat; unfold Rdiv; apply Rmult_le_pos; try lra; left; apply Rinv_0_lt_compat; [lra|apply pow_lt; lra].
Qed.
Lemma hg_diff t x N m : Rabs t < 1 -> Rabs x <= 1 ->
  Rabs (leg_series (hg_coef t) (N + m) x - leg_series (hg_coef t) N x) <= hg_tail t N - hg_tail t (N + m).
Proof.
  intros Ht Hx. induction m as [|m IH]; [rewrite Nat.add_0_r, !Rminus_eq_0, Rabs_R0; lra|].
  rewrite Nat.add_succ_r. cbn [leg_series].
  pose proof (hg_tail_step t (N + m) Ht) as S. set (A := leg_series (hg_coef t) (N + m) x) in *. set (B := leg_series (hg_coef t) N x) in *.
  replace (A + hg_coef t (N + m) * legP (N + m) x - B) with ((A - B) + hg_coef t (N + m) * legP (N + m) x) by ring.
  eapply Rle_trans; [apply Rabs_triang|].
  assert (Rabs (hg_coef t (N + m) * legP (N + m) x) <= (2 * INR (N + m) + 1) * Rabs t ^ (N + m)).
  { unfold hg_coef. rewrite !Rabs_mult, RPow_abs. pose proof (pos_INR (N + m)). rewrite (Rabs_pos_eq (2 * INR (N + m) + 1)) by lra.
    rewrite <- (Rmult_1_r ((2 * INR (N + m) + 1) * Rabs (t ^ (N + m)))) at 2. apply Rmult_le_compat_l; [|now apply legP_bound].
    apply Rmult_le_pos; [lra|apply Rabs_pos]. }
  lra.
Qed.
Theorem hg_error t x N : Rabs t < 1 -> Rabs x <= 1 -> Rabs (hg t x - leg_series (hg_coef t) N x) <= hg_tail t N.
Proof.
  intros Ht Hx. pose proof (hg_lim t x Ht Hx) as L. apply (is_lim_seq_incr_n _ N) in L.
  assert (L2 : is_lim_seq (fun m => Rabs (leg_series (hg_coef t) (m + N) x - leg_series (hg_coef t) N x)) (Rabs (hg t x - leg_series (hg_coef t) N x))).
  { apply (is_lim_seq_abs _ (Finite _)). apply is_lim_seq_minus'; [exact L|apply is_lim_seq_const]. }
  refine (is_lim_seq_le _ (fun _ => hg_tail t N) _ _ _ L2 (is_lim_seq_const _)).
  intros m. rewrite Nat.add_comm. pose proof (hg_diff t x N m Ht Hx). pose proof (hg_tail_pos t (N + m) Ht). lra.
Qed.
(** the bound tends to zero *)
Lemma npow_lim r : 0 <= r < 1 -> is_lim_seq (fun n => INR n * r ^ n) 0.
Proof.
  intros H. assert (E : ex_pseries (PS_derive (fun _ => 1)) r).
  { apply ex_pseries_derive. eapply Rbar_lt_le_trans; [|apply (proj1 (CV_radius_bounded _) 1); exists 1; intros n; rewrite Rabs_mult, pow1, Rabs_R1; lra].
    rewrite Rabs_pos_eq by lra. exact (proj2 H). }
  apply ex_pseries_R in E. apply ex_series_lim_0 in E.
  apply is_lim_seq_incr_1. apply (is_lim_seq_ext (fun n => r * (PS_derive (fun _ => 1) n * r ^ n))).
  - intros n. unfold PS_derive. simpl. ring.
  - replace (Finite 0) with (Rbar_mult r 0) by (simpl; f_equal; ring). apply is_lim_seq_scal_l. exact E.
Qed.
Lemma pow_lim r : 0 <= r < 1 -> is_lim_seq (fun n => r ^ n) 0.
Proof. intros H. apply is_lim_seq_geom. rewrite Rabs_pos_eq; lra. Qed.
Theorem hg_tail_lim t : Rabs t < 1 -> is_lim_seq (hg_tail t) 0.
Proof.
  intros H. pose proof (Rabs_pos t). set (r := Rabs t) in *.
  apply (is_lim_seq_ext (fun n => 2 / (1 - r) * (INR n * r ^ n) + (/ (1 - r) + 2 * r / (1 - r) ^ 2) * r ^ n)).
  - intros n. unfold hg_tail. fold r. field. lra.
  - replace (Finite 0) with (Rbar_plus (Rbar_mult (2 / (1 - r)) 0) (Rbar_mult (/ (1 - r) + 2 * r / (1 - r) ^ 2) 0)) by (simpl; f_equal; ring).
    apply is_lim_seq_plus'; apply (is_lim_seq_scal_l _ _ (Finite 0)); [apply npow_lim|apply pow_lim]; lra.
Qed.
