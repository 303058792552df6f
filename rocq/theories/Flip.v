(** Effect of turning the exit azimuth by pi on the integral of two first-order expansions. *)
From Coquelicot Require Import Coquelicot.
From Verif Require Import ExpInt AzInt LegFacts.
From Coq Require Import Lra Lia.
From Verif Require Import SpecScat SpecExp SpecInt FnInt.
Open Scope R_scope.

Lemma az_quad c0 c1 c2 d1 d2 :
  is_RInt (fun ph => (c0 + c1 * cos ph + c2 * sin ph) * (d1 * cos ph + d2 * sin ph)) 0 (2 * PI) (PI * (c1 * d1 + c2 * d2)).
Proof.
  set (A := fun ph => c0 * (d1 * sin ph - d2 * cos ph) + c1 * d1 * (ph / 2 + sin ph * cos ph / 2)
     + c2 * d2 * (ph / 2 - sin ph * cos ph / 2) + (c1 * d2 + c2 * d1) * (sin ph * sin ph / 2)).
  replace (PI * (c1 * d1 + c2 * d2)) with (minus (A (2 * PI)) (A 0)).
  - apply (is_RInt_derive A).
    + intros x _. unfold A. auto_derive; [exact I|]. pose proof (sin2_cos2 x) as S. unfold Rsqr in S.
      match goal with |- ?l = ?r => assert (D : l - r = (c1 * d1 + c2 * d2) / 2 * (1 - (sin x * sin x + cos x * cos x))) by field end.
      rewrite S in D. lra.
    + intros x _. apply edc. auto_derive. exact I.
  - unfold minus, plus, opp. cbn. unfold A. rewrite sin_2PI, cos_2PI, sin_0, cos_0. field.
Qed.

Lemma weight_nonneg mu0 tau mu : 0 < mu0 -> 0 < tau -> 0 < mu -> 0 <= weight mu0 tau mu.
Proof.
  intros H0 Ht Hm. unfold weight. destruct (Req_dec mu0 mu) as [->|N].
  - rewrite (Rminus_eq_0 (exp _)), Rmult_0_r. lra.
  - destruct (Rlt_dec mu mu0) as [L|L].
    + apply Rmult_le_pos; [apply Rmult_le_pos; [lra|left; apply Rinv_0_lt_compat; lra]|].
      enough (exp (- tau / mu) < exp (- tau / mu0)) by lra. apply exp_increasing.
      unfold Rdiv. rewrite !Ropp_mult_distr_l_reverse. apply Ropp_lt_contravar. apply Rmult_lt_compat_l; [assumption|]. apply Rinv_lt_contravar; [nra|assumption].
    + assert (mu0 < mu) by lra. replace (mu / (mu0 - mu) * (exp (- tau / mu0) - exp (- tau / mu))) with (mu / (mu - mu0) * (exp (- tau / mu) - exp (- tau / mu0))) by (field; lra).
      apply Rmult_le_pos; [apply Rmult_le_pos; [lra|left; apply Rinv_0_lt_compat; lra]|].
      enough (exp (- tau / mu0) < exp (- tau / mu)) by lra. apply exp_increasing.
      unfold Rdiv. rewrite !Ropp_mult_distr_l_reverse. apply Ropp_lt_contravar. apply Rmult_lt_compat_l; [assumption|]. apply Rinv_lt_contravar; [nra|assumption].
Qed.
Lemma weight_pos mu0 tau mu : 0 < tau -> 0 < mu < mu0 -> 0 < weight mu0 tau mu.
Proof.
  intros Ht Hm. unfold weight. apply Rmult_lt_0_compat; [apply Rdiv_lt_0_compat; lra|].
  enough (exp (- tau / mu) < exp (- tau / mu0)) by lra. apply exp_increasing.
  unfold Rdiv. rewrite !Ropp_mult_distr_l_reverse. apply Ropp_lt_contravar. apply Rmult_lt_compat_l; [assumption|]. apply Rinv_lt_contravar; [nra|lra].
Qed.
Lemma weight_cont mu0 tau mu : 0 < mu < mu0 -> continuous (weight mu0 tau) mu.
Proof. intros H. apply edc. unfold weight. auto_derive. repeat split; lra. Qed.
(** the integral of weight * h is positive for h >= 0, h > 0 inside *)
Lemma weight_int_pos mu0 tau (h : R -> R) W : 0 < mu0 < 1 -> 0 < tau -> (forall mu, 0 < mu < 1 -> 0 < h mu) ->
  (forall mu, continuous h mu) -> is_RInt (fun mu => weight mu0 tau mu * h mu) 0 1 W -> 0 < W.
Proof.
  intros Hm Ht Hp Hc I. set (g := fun mu => weight mu0 tau mu * h mu) in *.
  assert (E : ex_RInt g 0 1) by (eexists; exact I).
  set (u := mu0 / 4). set (v := mu0 / 2).
  assert (U : 0 < u < v) by (unfold u, v; lra). assert (V : v < mu0) by (unfold v; lra).
  assert (E1 : ex_RInt g 0 u) by (apply (ex_RInt_Chasles_1 g 0 u 1); [lra|exact E]).
  assert (E2 : ex_RInt g u 1) by (apply (ex_RInt_Chasles_2 g 0 u 1); [lra|exact E]).
  assert (E3 : ex_RInt g u v) by (apply (ex_RInt_Chasles_1 g u v 1); [lra|exact E2]).
  assert (E4 : ex_RInt g v 1) by (apply (ex_RInt_Chasles_2 g u v 1); [lra|exact E2]).
  assert (Nn : forall x, 0 < x < 1 -> 0 <= g x).
  { intros x Hx. apply Rmult_le_pos; [apply weight_nonneg; lra|left; apply Hp; lra]. }
  pose proof (RInt_ge_0 g 0 u ltac:(lra) E1 ltac:(intros; apply Nn; lra)) as P1.
  pose proof (RInt_ge_0 g v 1 ltac:(lra) E4 ltac:(intros; apply Nn; lra)) as P4.
  assert (P3 : 0 < RInt g u v).
  { apply RInt_gt_0; [lra| |].
    - intros x Hx. apply Rmult_lt_0_compat; [apply weight_pos; lra|apply Hp; lra].
    - intros x Hx. apply (cont_mul (weight mu0 tau) h); [apply weight_cont; lra|apply Hc]. }
  rewrite <- (rint_val g 0 1 W I), <- (RInt_Chasles g 0 u 1) by assumption. rewrite <- (RInt_Chasles g u v 1) by assumption.
  change (0 < RInt g 0 u + (RInt g u v + RInt g v 1)). lra.
Qed.

Section Deg1.
  Context (mu0 tau A B A' B' t0 tex p0 pex : R) (g h : gen).
  Hypothesis (Hm : 0 < mu0 < 1) (Ht : 0 < tau).
  Let p th ph := A + B * cos_angle g t0 th p0 ph.
  Let b pe th ph := A' + B' * cos_angle h th tex ph pe.
  Let K := 2 * PI * B * B' * sin t0 * sin tex * (ga1 g * ga1 h * cos p0 * cos pex + ga2 g * ga2 h * sin p0 * sin pex).
  Lemma deg1_flip F F' : is_F mu0 tau p (b pex) F -> is_F mu0 tau p (b (pex + PI)) F' -> exists W, 0 < W /\ F - F' = K * W.
  Proof.
    intros [E1 I1] [E2 I2].
    assert (D : forall th, RInt (fun ph => p th ph * b pex th ph) 0 (2 * PI) - RInt (fun ph => p th ph * b (pex + PI) th ph) 0 (2 * PI) = K * (sin th * sin th)).
    { intros th. destruct (E1 th) as [J HJ]. destruct (E2 th) as [J' HJ']. rewrite (rint_val _ _ _ _ HJ), (rint_val _ _ _ _ HJ').
      pose proof (is_sum _ _ _ _ _ _ HJ (is_scale _ _ _ (-1) _ HJ')) as X.
      pose proof (az_quad (A + B * (ga0 g * cos t0 * cos th)) (B * sin t0 * sin th * (ga1 g * cos p0)) (B * sin t0 * sin th * (ga2 g * sin p0))
         (2 * B' * sin th * sin tex * (ga1 h * cos pex)) (2 * B' * sin th * sin tex * (ga2 h * sin pex))) as Z.
      assert (Y : J + -1 * J' = PI * (B * sin t0 * sin th * (ga1 g * cos p0) * (2 * B' * sin th * sin tex * (ga1 h * cos pex)) + B * sin t0 * sin th * (ga2 g * sin p0) * (2 * B' * sin th * sin tex * (ga2 h * sin pex)))).
      { rewrite <- (rint_val _ _ _ _ X). rewrite <- (rint_val _ _ _ _ Z). apply RInt_ext. intros ph _. unfold p, b, cos_angle. rewrite (neg_cos pex), (neg_sin pex). match goal with |- ?u = ?v => change (u = v :> R) end. ring. }
      unfold K. nra. }
    pose proof (is_sum _ _ _ _ _ _ I1 (is_scale _ _ _ (-1) _ I2)) as X.
    assert (Y : is_RInt (fun mu => weight mu0 tau mu * (K * (1 - mu * mu))) 0 1 (F - F')).
    { replace (F - F') with (F + -1 * F') by ring. eapply is_RInt_ext; [|exact X]. intros mu Hmu. rewrite Rmin_left, Rmax_right in Hmu by lra.
      match goal with |- ?u = ?v => change (u = v :> R) end. cbv beta.
      specialize (D (acos mu)). assert (S : sin (acos mu) * sin (acos mu) = 1 - mu * mu).
      { pose proof (sin2_cos2 (acos mu)) as S. unfold Rsqr in S. rewrite cos_acos in S by lra. lra. }
      rewrite S in D. rewrite <- D. ring. }
    destruct (Req_dec K 0) as [Z|Z].
    - exists 1. split; [lra|]. rewrite Z in *. rewrite <- (rint_val _ _ _ _ Y). erewrite RInt_ext; [|intros mu _; rewrite Rmult_0_l, Rmult_0_r; reflexivity].
      rewrite RInt_const. unfold scal. cbn. unfold mult. cbn. ring.
    - exists (/ K * (F - F')). split; [|field; exact Z].
      apply (weight_int_pos mu0 tau (fun mu => 1 - mu * mu)); [assumption|assumption|intros mu Hmu; nra|intros mu; apply edc; auto_derive; exact I|].
      eapply is_ext; [|apply (is_scale _ _ _ (/ K) _ Y)]. intros mu. cbv beta. field. exact Z.
  Qed.
End Deg1.
