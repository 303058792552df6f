(** The documented scattering functions, over the real numbers (docs/model_specification.rst,
    docs/theory.rst).  Nothing here refers to the model of the program. *)
From Coq Require Import Reals Lra Lia.
Open Scope R_scope.

(** Legendre polynomials, by Bonnet's recurrence (n+2) P_{n+2} = (2n+3) x P_{n+1} - (n+1) P_n *)
Fixpoint legP2 (n : nat) (x : R) : R * R :=
  match n with
  | O => (1, x)
  | S m => let '(p, q) := legP2 m x in
           (q, ((2 * INR m + 3) * x * q - (INR m + 1) * p) / (INR m + 2))
  end.
Definition legP (n : nat) (x : R) : R := fst (legP2 n x).
Lemma legP_0 x : legP 0 x = 1. Proof. reflexivity. Qed.
Lemma legP_1 x : legP 1 x = x. Proof. reflexivity. Qed.
Lemma legP_SS n x : legP (S (S n)) x = ((2 * INR n + 3) * x * legP (S n) x - (INR n + 1) * legP n x) / (INR n + 2).
Proof. unfold legP. simpl. destruct (legP2 n x) as [p q]. reflexivity. Qed.

(** generalised scattering angle: cos(Theta_a) *)
Record gen : Type := mk_gen { ga0 : R; ga1 : R; ga2 : R }.
Definition cos_angle (a : gen) (t0 tex p0 pex : R) : R :=
  ga0 a * cos t0 * cos tex + sin t0 * sin tex * (ga1 a * cos p0 * cos pex + ga2 a * sin p0 * sin pex).

(** x^{3/2} *)
Definition pow32 (x : R) : R := x * sqrt x.
Definition hg (t x : R) : R := (1 - t ^ 2) / pow32 (1 + t ^ 2 - 2 * t * x).
(** volume phase functions of cos(Theta) *)
Definition p_isotropic : R := 1 / (4 * PI).
Definition p_rayleigh (x : R) : R := 3 / (16 * PI) * (1 + x ^ 2).
Definition p_hg (t x : R) : R := hg t x / (4 * PI).
Definition p_hgrayleigh (t x : R) : R := 3 / (8 * PI) * (1 / (2 + t ^ 2)) * (1 + x ^ 2) * hg t x.
(** surface BRDFs of cos(Theta) *)
Definition b_isotropic : R := 1 / PI.
Definition b_coslobe (i : nat) (x : R) : R := (if Rlt_dec 0 x then x else 0) ^ i / PI.
Definition b_hg (t x : R) : R := hg t x / PI.
(** nadir hemispherical reflectance of b_hg *)
Definition hg_nadir (t a : R) : R :=
  4 * ((1 - t ^ 2) * (1 - t * (- t + a) - sqrt ((1 + t ^ 2 - 2 * a * t) * (1 + t ^ 2))))
    / (2 * a ^ 2 * t ^ 2 * sqrt (1 + t ^ 2 - 2 * a * t)).
Definition b_hg_nadirnorm (t a x : R) : R := 1 / hg_nadir t a * b_hg t x.

(** ** Elementary facts *)
Lemma cs2 x y u v : x * x + y * y = 1 -> u * u + v * v = 1 -> Rabs (x * u) + Rabs (y * v) <= 1.
Proof.
  intros H1 H2. rewrite !Rabs_mult.
  assert (A : forall r, Rabs r * Rabs r = r * r) by (intros r; rewrite <- Rabs_mult; apply Rabs_pos_eq, Rle_0_sqr).
  pose proof (A x); pose proof (A y); pose proof (A u); pose proof (A v).
  pose proof (Rle_0_sqr (Rabs x - Rabs u)) as S1. pose proof (Rle_0_sqr (Rabs y - Rabs v)) as S2. unfold Rsqr in *. lra.
Qed.
Lemma cos_angle_le a t0 tex p0 pex : Rabs (ga0 a) <= 1 -> Rabs (ga1 a) <= 1 -> Rabs (ga2 a) <= 1 ->
  Rabs (cos_angle a t0 tex p0 pex) <= 1.
Proof.
  intros H0 H1 H2. unfold cos_angle.
  pose proof (cs2 (cos t0) (sin t0) (cos tex) (sin tex)) as A. pose proof (cs2 (cos p0) (sin p0) (cos pex) (sin pex)) as B.
  assert (N : forall t, cos t * cos t + sin t * sin t = 1) by (intros t; pose proof (sin2_cos2 t) as X; unfold Rsqr in X; lra).
  specialize (A (N _) (N _)). specialize (B (N _) (N _)).
  assert (M : forall x y, Rabs x <= 1 -> Rabs (x * y) <= Rabs y).
  { intros x y Hx. rewrite Rabs_mult. rewrite <- (Rmult_1_l (Rabs y)) at 2. apply Rmult_le_compat_r; [apply Rabs_pos|assumption]. }
  assert (I : Rabs (ga1 a * cos p0 * cos pex + ga2 a * sin p0 * sin pex) <= 1).
  { eapply Rle_trans; [apply Rabs_triang|]. rewrite !Rmult_assoc.
    pose proof (M (ga1 a) (cos p0 * cos pex) H1). pose proof (M (ga2 a) (sin p0 * sin pex) H2). lra. }
  eapply Rle_trans; [apply Rabs_triang|]. rewrite Rmult_assoc.
  pose proof (M (ga0 a) (cos t0 * cos tex) H0).
  pose proof (M _ (sin t0 * sin tex) I) as X. rewrite (Rmult_comm _ (sin t0 * sin tex)) in X. lra.
Qed.
Lemma hg_den_pos t x : Rabs t < 1 -> Rabs x <= 1 -> 0 < 1 + t ^ 2 - 2 * t * x.
Proof.
  intros Ht Hx. assert (2 * t * x <= 2 * Rabs t).
  { eapply Rle_trans; [apply Rle_abs|]. rewrite !Rabs_mult. rewrite (Rabs_pos_eq 2) by lra.
    rewrite <- (Rmult_1_r (2 * Rabs t)) at 2. apply Rmult_le_compat_l; [|assumption]. pose proof (Rabs_pos t). lra. }
  assert (t ^ 2 = Rabs t ^ 2) by (rewrite RPow_abs; symmetry; apply Rabs_pos_eq; simpl; rewrite Rmult_1_r; apply Rle_0_sqr).
  rewrite H0. replace (1 + Rabs t ^ 2 - 2 * t * x) with ((1 - Rabs t) ^ 2 + (2 * Rabs t - 2 * t * x)) by ring.
  assert (0 < (1 - Rabs t) ^ 2) by (apply pow_lt; lra). lra.
Qed.
Lemma pow32_pos x : 0 < x -> 0 < pow32 x.
Proof. intros H. unfold pow32. apply Rmult_lt_0_compat; [assumption|now apply sqrt_lt_R0]. Qed.
