(** The series of the HG-Rayleigh function and the nadir reflectance of the Henyey-Greenstein BRDF.
    No part of the program is modelled here. *)
From Coq Require Import Reals Lra Lia.
From Verif Require Import SpecScat SpecExp.
From Coquelicot Require Import Coquelicot.
From Verif Require Import ExpInt LegFacts.
From Verif Require Export LegSeries.
Open Scope R_scope.

(** multiplication of a Legendre sum by x *)
Definition xmul (g : nat -> R) (k : nat) : R := INR k * g (k - 1)%nat + (INR k + 1) * g (S k).
Lemma leg_series_ext' c d n x : (forall k, (k < n)%nat -> c k = d k) -> leg_series c n x = leg_series d n x.
Proof. induction n as [|n IH]; intros H; [reflexivity|]. cbn [leg_series]. rewrite IH, H; auto. Qed.
Lemma bonnet' k x : (2 * INR k + 1) * x * legP k x = (INR k + 1) * legP (S k) x + INR k * legP (k - 1) x.
Proof.
  destruct k as [|k]; [simpl; rewrite legP_0, legP_1; ring|]. pose proof (bonnet k x) as B. rewrite S_INR.
  replace (S k - 1)%nat with k by lia. lra.
Qed.
Lemma leg_xmul g N x :
  x * leg_series (fun k => (2 * INR k + 1) * g k) N x =
  leg_series (xmul g) N x + INR N * (g (N - 1)%nat * legP N x - g N * legP (N - 1) x).
Proof.
  induction N as [|N IH]; [simpl; ring|]. cbn [leg_series]. rewrite Rmult_plus_distr_l, IH.
  replace (x * ((2 * INR N + 1) * g N * legP N x)) with (g N * ((2 * INR N + 1) * x * legP N x)) by ring. rewrite bonnet'.
  unfold xmul. rewrite S_INR. replace (S N - 1)%nat with N by lia. ring.
Qed.
(** coefficients of x * hg and x^2 * hg *)
Definition hgb (t : R) (j : nat) : R := (INR j * t ^ (j - 1) + (INR j + 1) * t ^ S j) / (2 * INR j + 1).
Definition hgr_coef (t : R) (k : nat) : R := hg_coef t k + xmul (hgb t) k.
Definition hgr_rest (t x : R) (N : nat) : R :=
  INR N * (hgb t (N - 1) * legP N x - hgb t N * legP (N - 1) x) + x * (INR N * (t ^ (N - 1) * legP N x - t ^ N * legP (N - 1) x)).
Lemma hgr_finite t x N : (1 + x ^ 2) * leg_series (hg_coef t) N x = leg_series (hgr_coef t) N x + hgr_rest t x N.
Proof.
  pose proof (leg_xmul (fun k => t ^ k) N x : x * leg_series (hg_coef t) N x = _) as A. cbv beta in A.
  assert (E : leg_series (xmul (fun k => t ^ k)) N x = leg_series (fun k => (2 * INR k + 1) * hgb t k) N x).
  { apply leg_series_ext'. intros k _. unfold xmul, hgb. pose proof (pos_INR k). field. lra. }
  pose proof (leg_xmul (hgb t) N x) as B. rewrite <- E in B.
  assert (S : leg_series (hgr_coef t) N x = leg_series (hg_coef t) N x + leg_series (xmul (hgb t)) N x).
  { clear. induction N as [|N IH]; [simpl; ring|]. cbn [leg_series]. rewrite IH. unfold hgr_coef. ring. }
  rewrite S. unfold hgr_rest.
  replace ((1 + x ^ 2) * leg_series (hg_coef t) N x) with (leg_series (hg_coef t) N x + x * (x * leg_series (hg_coef t) N x)) by ring.
  rewrite A. rewrite Rmult_plus_distr_l, B. ring.
Qed.
Lemma hgb_bound t j : Rabs t <= 1 -> (1 <= j)%nat -> Rabs (hgb t j) <= Rabs t ^ (j - 1).
Proof.
  intros H Hj. unfold hgb. pose proof (pos_INR j). rewrite Rabs_div by lra. rewrite (Rabs_pos_eq (2 * INR j + 1)) by lra.
  apply (Rmult_le_reg_r (2 * INR j + 1)); [lra|]. unfold Rdiv. rewrite Rmult_assoc, Rinv_l, Rmult_1_r by lra.
  eapply Rle_trans; [apply Rabs_triang|]. rewrite !Rabs_mult, (Rabs_pos_eq (INR j)), (Rabs_pos_eq (INR j + 1)) by lra. rewrite <- !RPow_abs.
  replace (S j) with (S (S (j - 1))) by lia. set (r := Rabs t) in *. assert (0 <= r) by apply Rabs_pos.
  assert (P : 0 <= r ^ (j - 1)) by now apply pow_le. simpl.
  assert (r * (r * r ^ (j - 1)) <= r ^ (j - 1)).
  { rewrite <- Rmult_assoc. rewrite <- (Rmult_1_l (r ^ (j - 1))) at 2. apply Rmult_le_compat_r; [assumption|]. rewrite <- (Rmult_1_l 1). apply Rmult_le_compat; lra. }
  assert ((INR j + 1) * (r * (r * r ^ (j - 1))) <= (INR j + 1) * r ^ (j - 1)) by (apply Rmult_le_compat_l; lra). lra.
Qed.
Lemma mul_le1 a b m : Rabs a <= m -> Rabs b <= 1 -> Rabs (a * b) <= m.
Proof. intros A B. rewrite Rabs_mult. rewrite <- (Rmult_1_r m). apply Rmult_le_compat; auto using Rabs_pos. Qed.
Lemma hgr_rest_bound t x N : Rabs t < 1 -> Rabs x <= 1 -> Rabs (hgr_rest t x (S (S N))) <= 4 * INR (S (S N)) * Rabs t ^ N.
Proof.
  intros Ht Hx. unfold hgr_rest. set (M := S (S N)). replace (M - 1)%nat with (S N) by (unfold M; lia).
  set (r := Rabs t) in *. assert (R0 : 0 <= r) by apply Rabs_pos. assert (P : 0 <= r ^ N) by now apply pow_le.
  assert (P1 : r * r ^ N <= r ^ N) by (rewrite <- (Rmult_1_l (r ^ N)) at 2; apply Rmult_le_compat_r; lra).
  assert (P2 : r * (r * r ^ N) <= r ^ N).
  { eapply Rle_trans; [|exact P1]. rewrite <- (Rmult_1_l (r * r ^ N)) at 2. apply Rmult_le_compat_r; [apply Rmult_le_pos; lra|lra]. }
  pose proof (hgb_bound t (S N) (Rlt_le _ _ Ht) ltac:(lia)) as B1. pose proof (hgb_bound t M (Rlt_le _ _ Ht) ltac:(unfold M; lia)) as B2.
  replace (S N - 1)%nat with N in B1 by lia. replace (M - 1)%nat with (S N) in B2 by (unfold M; lia). fold r in B1, B2. simpl in B2.
  pose proof (legP_bound M x Hx) as L1. pose proof (legP_bound (S N) x Hx) as L2.
  pose proof (mul_le1 _ _ _ B1 L1) as A1. pose proof (mul_le1 _ _ _ B2 L2) as A2.
  assert (T1 : Rabs (t ^ S N) <= r * r ^ N) by (rewrite <- RPow_abs; fold r; simpl; lra).
  assert (T2 : Rabs (t ^ M) <= r * (r * r ^ N)) by (rewrite <- RPow_abs; fold r; unfold M; simpl; lra).
  pose proof (mul_le1 _ _ _ T1 L1) as A3. pose proof (mul_le1 _ _ _ T2 L2) as A4.
  pose proof (pos_INR M) as Z.
  assert (Q : forall u v m, Rabs u <= m -> Rabs v <= m -> Rabs (INR M * (u - v)) <= INR M * (2 * m)).
  { intros u v m U V. rewrite Rabs_mult, (Rabs_pos_eq (INR M)) by assumption. apply Rmult_le_compat_l; [assumption|].
    eapply Rle_trans; [apply Rabs_triang|]. rewrite Rabs_Ropp. lra. }
  pose proof (Q _ _ (r ^ N) A1 (Rle_trans _ _ _ A2 P1)) as Q1. pose proof (Q _ _ (r ^ N) (Rle_trans _ _ _ A3 P1) (Rle_trans _ _ _ A4 P2)) as Q2.
  assert (Q3 := mul_le1 _ _ _ Q2 Hx). rewrite (Rmult_comm _ x) in Q3.
  eapply Rle_trans; [apply Rabs_triang|]. lra.
Qed.
(** error bound for (1 + x^2) hg *)
Definition hgr_tail (t : R) (N : nat) : R := 2 * hg_tail t (S (S N)) + 4 * INR (S (S N)) * Rabs t ^ N.
Theorem hgr_error t x N : Rabs t < 1 -> Rabs x <= 1 ->
  Rabs ((1 + x ^ 2) * hg t x - leg_series (hgr_coef t) (S (S N)) x) <= hgr_tail t N.
Proof.
  intros Ht Hx. pose proof (hgr_finite t x (S (S N))) as F. pose proof (hgr_rest_bound t x N Ht Hx) as B.
  pose proof (hg_error t x (S (S N)) Ht Hx) as E.
  replace ((1 + x ^ 2) * hg t x - leg_series (hgr_coef t) (S (S N)) x)
    with ((1 + x ^ 2) * (hg t x - leg_series (hg_coef t) (S (S N)) x) + hgr_rest t x (S (S N))) by lra.
  eapply Rle_trans; [apply Rabs_triang|]. unfold hgr_tail. apply Rplus_le_compat; [|assumption].
  assert (X : 0 <= x ^ 2 <= 1). { split; [apply pow2_ge_0|]. rewrite <- (pow2_abs x). rewrite <- (pow1 2). apply pow_incr. split; [apply Rabs_pos|assumption]. }
  rewrite Rabs_mult, (Rabs_pos_eq (1 + x ^ 2)) by lra. apply Rmult_le_compat; try lra; apply Rabs_pos.
Qed.
Theorem hgr_tail_lim t : Rabs t < 1 -> is_lim_seq (hgr_tail t) 0.
Proof.
  intros H. set (r := Rabs t) in *. assert (0 <= r < 1) by (split; [apply Rabs_pos|exact H]).
  apply (is_lim_seq_ext (fun n => 2 * hg_tail t (S (S n)) + (4 * (INR n * r ^ n) + 8 * r ^ n))).
  - intros n. unfold hgr_tail. rewrite !S_INR. fold r. ring.
  - replace (Finite 0) with (Finite (2 * 0 + (4 * 0 + 8 * 0))) by (f_equal; ring).
    apply is_lim_seq_plus'; [|apply is_lim_seq_plus']; apply (is_lim_seq_scal_l _ _ (Finite 0)).
    + pose proof (hg_tail_lim t H) as L. apply (proj1 (is_lim_seq_incr_1 (fun n => hg_tail t (S n)) 0)). now apply (proj1 (is_lim_seq_incr_1 (hg_tail t) 0)).
    + now apply npow_lim.
    + now apply pow_lim.
Qed.
(** the documented coefficients *)
Lemma c_hgr_val t k : c_hgrayleigh t k = 3 / (8 * PI) * (1 / (2 + t ^ 2)) * hgr_coef t k.
Proof.
  unfold c_hgrayleigh, hgr_coef, hg_coef, xmul, hgb. pose proof PI_RGT_0. assert (T : 2 + t ^ 2 <> 0) by (pose proof (pow2_ge_0 t); lra).
  destruct k as [|[|k]].
  - simpl. simpl in T. field. lra.
  - simpl. simpl in T. field. lra.
  - change (Nat.ltb (S (S k)) 2) with false. cbn iota. replace (S (S k) - 2)%nat with k by lia. replace (S (S k) - 1)%nat with (S k) by lia.
    replace (S k - 1)%nat with k by lia. replace (S (S (S k)) - 1)%nat with (S (S k)) by lia. replace (S (S k) + 2)%nat with (S (S (S (S k)))) by lia.
    rewrite !S_INR. pose proof (pos_INR k). set (n := INR k) in *. simpl. simpl in T. field. repeat split; lra.
Qed.

(** ** nadir reflectance *)
Definition nadir_prim (c d u : R) : R := 2 / d ^ 2 * (sqrt (c - d * u) + c / sqrt (c - d * u)).
Lemma nadir_derive c d u : d <> 0 -> 0 < c - d * u -> is_derive (nadir_prim c d) u (u / pow32 (c - d * u)).
Proof.
  intros Hd P. pose proof (sqrt_lt_R0 _ P) as PS. unfold nadir_prim, pow32. auto_derive.
  - replace (c + - (d * u)) with (c - d * u) by ring. repeat split; lra.
  - replace (c + - (d * u)) with (c - d * u) by ring. set (S := sqrt (c - d * u)) in *.
    assert (SS : S * S = c - d * u) by (apply sqrt_sqrt; lra). rewrite <- SS.
    assert (Ec : c = S * S + d * u) by lra. field_simplify_eq; [|repeat split; lra]. rewrite Ec. ring.
Qed.
Lemma hg_nadir_pos t a : 0 < Rabs t < 1 -> 0 < Rabs a <= 1 -> 0 < hg_nadir t a.
Proof.
  intros Ht Ha. assert (Pd : 0 < 1 + t ^ 2 - 2 * a * t) by (replace (2 * a * t) with (2 * t * a) by ring; apply hg_den_pos; lra).
  assert (t <> 0) by (intros ->; rewrite Rabs_R0 in Ht; lra). assert (a <> 0) by (intros ->; rewrite Rabs_R0 in Ha; lra).
  unfold hg_nadir. set (c := 1 + t ^ 2) in *. set (q := c - 2 * a * t) in *. pose proof (pow2_ge_0 t) as T2. assert (Pc : 0 < c) by (unfold c; lra).
  assert (t ^ 2 < 1). { rewrite <- (pow2_abs t). replace (Rabs t ^ 2) with (Rabs t * Rabs t) by ring. rewrite <- (Rmult_1_l 1). apply Rmult_le_0_lt_compat; lra. }
  assert (S : sqrt (q * c) < c - a * t).
  { assert (0 <= q * c) by (apply Rmult_le_pos; lra). assert (Pm : 0 < c - a * t) by (unfold q in Pd; lra).
    rewrite <- (sqrt_Rsqr (c - a * t)) by lra. apply sqrt_lt_1; [assumption|apply Rle_0_sqr|]. unfold Rsqr, q.
    assert (0 < (a * t) * (a * t)) by (apply Rlt_0_sqr; apply Rmult_integral_contrapositive; auto). lra. }
  replace (1 - t * (- t + a)) with (c - a * t) by (unfold c; ring).
  apply Rdiv_lt_0_compat.
  - apply Rmult_lt_0_compat; [lra|]. apply Rmult_lt_0_compat; lra.
  - apply Rmult_lt_0_compat; [|now apply sqrt_lt_R0]. apply Rmult_lt_0_compat; [apply Rmult_lt_0_compat; [lra|]|]; simpl; rewrite Rmult_1_r; now apply Rlt_0_sqr.
Qed.
Theorem nadir_normalised t a : 0 < Rabs t < 1 -> 0 < Rabs a <= 1 ->
  is_RInt (fun th => b_hg_nadirnorm t a (a * cos th) * cos th * sin th) 0 (PI / 2) (1 / (2 * PI)).
Proof.
  intros Ht Ha. pose proof (hg_nadir_pos t a Ht Ha) as PH. pose proof PI_RGT_0 as PP.
  assert (t0 : t <> 0) by (intros ->; rewrite Rabs_R0 in Ht; lra). assert (a0 : a <> 0) by (intros ->; rewrite Rabs_R0 in Ha; lra).
  set (c := 1 + t ^ 2). set (d := 2 * t * a). assert (Hd : d <> 0) by (unfold d; repeat (apply Rmult_integral_contrapositive; split); auto).
  assert (Pos : forall th, 0 < c - d * cos th).
  { intros th. unfold c, d. replace (2 * t * a * cos th) with (2 * t * (a * cos th)) by ring. apply hg_den_pos; [lra|].
    apply mul_le1; [lra|]. apply Rabs_le. pose proof (COS_bound th). lra. }
  set (K := (1 - t ^ 2) / PI / hg_nadir t a).
  assert (D : forall th, is_derive (fun th => - K * nadir_prim c d (cos th)) th (b_hg_nadirnorm t a (a * cos th) * cos th * sin th)).
  { intros th. pose proof (nadir_derive c d (cos th) Hd (Pos th)) as N.
    replace (b_hg_nadirnorm t a (a * cos th) * cos th * sin th) with (- K * ((- sin th) * (cos th / pow32 (c - d * cos th)))).
    - auto_derive; [eexists; exact N|]. rewrite (dval (nadir_prim c d) _ _ N). ring.
    - unfold b_hg_nadirnorm, b_hg, hg, K. fold c. replace (c - 2 * t * (a * cos th)) with (c - d * cos th) by (unfold d; ring).
      pose proof (pow32_pos _ (Pos th)). field. lra. }
  assert (C : forall th, continuous (fun th => b_hg_nadirnorm t a (a * cos th) * cos th * sin th) th).
  { intros th. refine (edc _ th _). unfold b_hg_nadirnorm, b_hg, hg, pow32. pose proof (Pos th) as P. pose proof (sqrt_lt_R0 _ P).
    assert (E : 1 + t ^ 2 - 2 * t * (a * cos th) = c - d * cos th) by (unfold c, d; ring). simpl in E.
    auto_derive. replace (1 + t * (t * 1) + - (2 * t * (a * cos th))) with (c - d * cos th) by (rewrite <- E; ring).
    repeat split; auto; try lra. apply Rmult_integral_contrapositive; lra. }
  pose proof (is_RInt_derive _ _ 0 (PI / 2) (fun x _ => D x) (fun x _ => C x)) as I.
  assert (V : minus (- K * nadir_prim c d (cos (PI / 2))) (- K * nadir_prim c d (cos 0)) = 1 / (2 * PI)); [|rewrite <- V; exact I].
  unfold minus, plus, opp. cbn. rewrite cos_PI2, cos_0. unfold nadir_prim. rewrite !Rmult_0_r, Rmult_1_r, Rminus_0_r.
  unfold K, hg_nadir in *. replace (1 + t ^ 2 - 2 * a * t) with (c - d) in * by (unfold c, d; ring). fold c in PH |- *.
  replace (1 - t * (- t + a)) with (c - d / 2) in * by (unfold c, d; field).
  assert (Pc : 0 < c) by (unfold c; pose proof (pow2_ge_0 t); lra). assert (Pcd : 0 < c - d) by (pose proof (Pos 0) as P0'; rewrite cos_0, Rmult_1_r in P0'; exact P0').
  rewrite sqrt_mult in * by lra. pose proof (sqrt_lt_R0 _ Pc) as S1. pose proof (sqrt_lt_R0 _ Pcd) as S2.
  assert (E1 : sqrt c * sqrt c = c) by (apply sqrt_sqrt; lra). assert (E2 : sqrt (c - d) * sqrt (c - d) = c - d) by (apply sqrt_sqrt; lra).
  set (s1 := sqrt c) in *. set (s2 := sqrt (c - d)) in *.
  assert (T1 : 1 - t ^ 2 <> 0).
  { intros X. rewrite X in PH. unfold Rdiv in PH. rewrite !Rmult_0_l, Rmult_0_r, Rmult_0_l in PH. lra. }
  assert (M : c - d / 2 - s2 * s1 <> 0).
  { intros X. rewrite X in PH. unfold Rdiv in PH. rewrite !Rmult_0_r, Rmult_0_l in PH. lra. }
  replace (d ^ 2) with (4 * (a ^ 2 * t ^ 2)) by (unfold d; ring).
  assert (A : a ^ 2 * t ^ 2 <> 0) by (apply Rmult_integral_contrapositive; split; apply pow_nonzero; assumption).
  replace (2 * a ^ 2 * t ^ 2) with (2 * (a ^ 2 * t ^ 2)) by ring. set (A2 := a ^ 2 * t ^ 2) in *.
  replace (c / s1) with s1 by (rewrite <- E1 at 1; field; lra).
  assert (E3 : s2 + c / s2 = 2 * (c - d / 2) / s2).
  { apply (Rmult_eq_reg_r s2); [|lra]. transitivity (s2 * s2 + c); [field; lra|]. rewrite E2. field. lra. }
  rewrite E3.
  field. repeat split; try lra; try assumption.
Qed.
