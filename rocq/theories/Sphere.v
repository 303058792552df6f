(** Integrals over the unit sphere of functions of the scattering angle.  No part of the program is
    modelled here. *)
From Coq Require Import Reals Lra Lia.
From Verif Require Import SpecScat SpecExp.
From Coquelicot Require Import Coquelicot.
From Verif Require Import ExpInt LegFacts.
From Verif Require Export LegSeries2.
Open Scope R_scope.

(** the iterated integral of p(theta, phi) sin(theta) over theta in [0, pi] and phi in [0, 2 pi] is v *)
Definition is_sphere (p : R -> R -> R) (v : R) : Prop :=
  exists J : R -> R, (forall ph, is_RInt (fun th => p th ph * sin th) 0 PI (J ph)) /\ is_RInt J 0 (2 * PI) v.

Lemma is_val (f : R -> R) a b F G : is_RInt f a b F -> F = G -> is_RInt f a b G. Proof. intros H <-. exact H. Qed.
Lemma int_lin (f g : R -> R) a b c d F G : is_RInt f a b F -> is_RInt g a b G -> is_RInt (fun x => c * f x + d * g x) a b (c * F + d * G).
Proof. apply is_lin2. Qed.
Lemma int_ext (f g : R -> R) a b F : (forall x, f x = g x) -> is_RInt f a b F -> is_RInt g a b F.
Proof. intros H. apply is_RInt_ext. intros x _. apply H. Qed.
Lemma sphere_ext p q v : (forall th ph, p th ph = q th ph) -> is_sphere p v -> is_sphere q v.
Proof. intros H (J & A & B). exists J. split; [|exact B]. intros ph. eapply int_ext; [|apply A]. intros th. cbv beta. now rewrite H. Qed.
Lemma sphere_lin p q c d v w : is_sphere p v -> is_sphere q w -> is_sphere (fun th ph => c * p th ph + d * q th ph) (c * v + d * w).
Proof.
  intros (J & A & B) (K & C & D). exists (fun ph => c * J ph + d * K ph). split; [|now apply int_lin]. intros ph.
  eapply int_ext; [|apply (int_lin _ _ _ _ c d _ _ (A ph) (C ph))]. intros th. cbv beta. ring.
Qed.
Lemma sphere_const c : is_sphere (fun _ _ => c) (4 * PI * c).
Proof.
  exists (fun _ => 2 * c). split.
  - intros ph. assert (D : forall th, is_derive (fun th => - c * cos th) th (c * sin th)) by (intros th; auto_derive; [exact I|ring]).
    assert (C : forall th, continuous (fun th => c * sin th) th) by (intros th; refine (edc _ th _); auto_derive; exact I).
    pose proof (is_RInt_derive _ _ 0 PI (fun x _ => D x) (fun x _ => C x)) as X. cbv beta in X. rewrite cos_PI, cos_0 in X.
    replace (2 * c) with (minus (- c * -1) (- c * 1)) by (unfold minus, plus, opp; cbn; ring). exact X.
  - pose proof (is_RInt_const 0 (2 * PI) (2 * c)) as X. unfold scal in X. cbn in X. unfold mult in X. cbn in X.
    replace (4 * PI * c) with ((2 * PI - 0) * (2 * c)) by ring. exact X.
Qed.

(** ** differentiation under the integral *)
Lemma param_derive (f d : R -> R -> R) a b :
  (forall u t, is_derive (fun u => f u t) u (d u t)) -> (forall u t, continuity_2d_pt d u t) -> (forall u t, continuous (fun t => f u t) t) ->
  forall u, is_derive (fun u => RInt (fun t => f u t) a b) u (RInt (fun t => d u t) a b).
Proof.
  intros D C F u. assert (E : forall u t, Derive (fun z => f z t) u = d u t) by (intros; apply is_derive_unique, D).
  replace (RInt (fun t => d u t) a b) with (RInt (fun t => Derive (fun z => f z t) u) a b).
  - apply is_derive_RInt_param.
    + apply filter_forall. intros y t _. eexists. apply D.
    + intros t _. apply (continuity_2d_pt_ext d); [intros; symmetry; apply E|apply C].
    + apply filter_forall. intros y. apply cont_int. intros t. apply F.
  - apply RInt_ext. intros t _. apply E.
Qed.

(** ** spherical means of Legendre polynomials vanish *)
Fixpoint legE (n : nat) (x : R) : R := match n with O => 0 | S m => x * legE m x + (INR m + 2) * legD m x end.
Lemma legD_derive n x : is_derive (legD n) x (legE n x).
Proof.
  revert x. induction n as [|n IH]; intros x; [apply (is_derive_const 0)|].
  apply (is_derive_ext (fun x => x * legD n x + (INR n + 1) * legP n x)); [intros t; symmetry; apply legD_S|].
  auto_derive; [repeat split; match goal with |- context [legP] => apply legP_ex_derive | _ => apply legD_ex end|].
  rewrite (dval (legD n) _ _ (IH x)), (dval (legP n) _ _ (legP_derive n x)). cbn [legE]. ring.
Qed.
Lemma legE_ex n : forall x, ex_derive (legE n) x.
Proof.
  induction n as [|n IH]; intros x; [apply (ex_derive_const 0)|]. cbn [legE].
  auto_derive. repeat split; match goal with |- context [legE] => apply IH | _ => apply legD_ex end.
Qed.
Lemma leg_ode2 n x : (1 - x * x) * legE n x - 2 * x * legD n x = - (INR n * (INR n + 1)) * legP n x.
Proof.
  rewrite <- (is_derive_unique _ _ _ (leg_ode n x)). symmetry. apply is_derive_unique. auto_derive; [apply legD_ex|].
  rewrite (dval (legD n) _ _ (legD_derive n x)). ring.
Qed.

Section Direction.
  Context (A B p0 : R) (AB : A * A + B * B = 1).
  Definition dirx (th ph : R) : R := A * cos th + B * sin th * (cos p0 * cos ph + sin p0 * sin ph).
  Let u (ph : R) : R := cos p0 * cos ph + sin p0 * sin ph.
  Let v (ph : R) : R := - cos p0 * sin ph + sin p0 * cos ph.
  Lemma uv ph : u ph * u ph + v ph * v ph = 1.
  Proof.
    unfold u, v. pose proof (sin2_cos2 p0) as X. pose proof (sin2_cos2 ph) as Y. unfold Rsqr in *.
    transitivity ((sin p0 * sin p0 + cos p0 * cos p0) * (sin ph * sin ph + cos ph * cos ph)); [ring|]. rewrite X, Y. ring.
  Qed.
  Lemma dirx_le th ph : Rabs (dirx th ph) <= 1.
  Proof.
    unfold dirx. fold (u ph). pose proof (cs2 A B (cos th) (sin th) AB) as X.
    assert (N : cos th * cos th + sin th * sin th = 1) by (pose proof (sin2_cos2 th) as Z; unfold Rsqr in Z; lra). specialize (X N).
    assert (Rabs (u ph) <= 1). { rewrite <- Rabs_R1. apply Rsqr_le_abs_0. unfold Rsqr. pose proof (uv ph). pose proof (Rle_0_sqr (v ph)) as Z. unfold Rsqr in Z. lra. }
    eapply Rle_trans; [apply Rabs_triang|]. pose proof (mul_le1 (B * sin th) (u ph) _ (Rle_refl _) H). lra.
  Qed.
  Lemma cont_pt_ex (f : R -> R) x : ex_derive f x -> continuity_pt f x.
  Proof. intros [l H]. apply derivable_continuous_pt. exists l. now apply is_derive_Reals. Qed.
  Lemma c2_dirx ph th : continuity_2d_pt (fun ph th => dirx th ph) ph th.
  Proof.
    unfold dirx. repeat first [apply continuity_2d_pt_plus|apply continuity_2d_pt_mult|apply continuity_2d_pt_const
      |apply (continuity_1d_2d_pt_comp cos (fun x _ => x))|apply (continuity_1d_2d_pt_comp cos (fun _ y => y))
      |apply (continuity_1d_2d_pt_comp sin (fun x _ => x))|apply (continuity_1d_2d_pt_comp sin (fun _ y => y))
      |apply continuity_2d_pt_id1|apply continuity_2d_pt_id2|apply continuity_cos|apply continuity_sin].
  Qed.
  Lemma c2_comp Q ph th : (forall x, ex_derive Q x) -> continuity_2d_pt (fun ph th => Q (dirx th ph)) ph th.
  Proof. intros H. apply (continuity_1d_2d_pt_comp Q (fun ph th => dirx th ph)); [apply cont_pt_ex, H|apply c2_dirx]. Qed.
  Lemma c2_1 Q ph th : (forall x, ex_derive Q x) -> continuity_2d_pt (fun ph _ => Q ph) ph th.
  Proof. intros H. apply (continuity_1d_2d_pt_comp Q (fun x _ => x)); [apply cont_pt_ex, H|apply continuity_2d_pt_id1]. Qed.
  Lemma c2_2 Q ph th : (forall x, ex_derive Q x) -> continuity_2d_pt (fun _ th => Q th) ph th.
  Proof. intros H. apply (continuity_1d_2d_pt_comp Q (fun _ y => y)); [apply cont_pt_ex, H|apply continuity_2d_pt_id2]. Qed.
  Lemma sin_ex x : ex_derive sin x. Proof. auto_derive. exact I. Qed.
  Lemma v_ex x : ex_derive v x. Proof. unfold v. auto_derive. exact I. Qed.
  Lemma u_ex x : ex_derive u x. Proof. unfold u. auto_derive. exact I. Qed.
  Lemma v_d x : is_derive v x (- u x). Proof. unfold v, u. auto_derive; [exact I|ring]. Qed.

  Lemma cos_ex x : ex_derive cos x. Proof. auto_derive. exact I. Qed.
  Ltac c2 := repeat first [apply continuity_2d_pt_plus|apply continuity_2d_pt_mult|apply continuity_2d_pt_const|apply continuity_2d_pt_opp];
    match goal with
    | |- continuity_2d_pt (fun x _ => sin x) _ _ => apply c2_1, sin_ex
    | |- continuity_2d_pt (fun x _ => cos x) _ _ => apply c2_1, cos_ex
    | |- continuity_2d_pt (fun _ y => sin y) _ _ => apply c2_2, sin_ex
    | |- continuity_2d_pt (fun _ y => cos y) _ _ => apply c2_2, cos_ex
    | |- context [legP ?k] => apply (c2_comp (legP k)), legP_ex_derive
    | |- context [legD ?k] => apply (c2_comp (legD k)), legD_ex
    | |- context [legE ?k] => apply (c2_comp (legE k)), legE_ex
    end.
  Context (k : nat).
  Definition Jk (ph : R) : R := RInt (fun th => legP k (dirx th ph) * sin th) 0 PI.
  Definition Mk (ph : R) : R := RInt (fun th => legD k (dirx th ph) * (B * v ph)) 0 PI.
  Lemma dirx_th th ph : is_derive (fun th => dirx th ph) th (- A * sin th + B * cos th * u ph).
  Proof. unfold dirx, u. auto_derive; [exact I|ring]. Qed.
  Lemma dirx_ph th ph : is_derive (fun ph => dirx th ph) ph (B * sin th * v ph).
  Proof. unfold dirx, v. auto_derive; [exact I|ring]. Qed.
  Lemma comp_d (Q : R -> R) (g : R -> R) x q d : is_derive g x d -> is_derive Q (g x) q -> is_derive (fun x => Q (g x)) x (d * q).
  Proof. intros Hg HQ. exact (is_derive_comp Q g x q d HQ Hg). Qed.
  Lemma mul_d (f g : R -> R) x a b : is_derive f x a -> is_derive g x b -> is_derive (fun x => f x * g x) x (a * g x + f x * b).
  Proof. intros F G. apply (is_derive_mult f g x a b F G). intros; apply Rmult_comm. Qed.
  Lemma const_d (c x : R) : is_derive (fun _ => c) x 0. Proof. apply (is_derive_const c x). Qed.
  Lemma P_cont th ph : continuous (fun th => legP k (dirx th ph) * sin th) th.
  Proof. refine (edc _ th _). eexists. apply mul_d; [apply (comp_d (legP k) (fun th => dirx th ph)); [apply dirx_th|apply legP_derive]|apply is_derive_sin]. Qed.
  Lemma J_int ph : is_RInt (fun th => legP k (dirx th ph) * sin th) 0 PI (Jk ph).
  Proof. apply int_cont. intros th. apply P_cont. Qed.
  Lemma J_cont ph : continuous Jk ph.
  Proof.
    refine (edc _ ph _). eexists. unfold Jk.
    apply (param_derive (fun ph th => legP k (dirx th ph) * sin th) (fun ph th => (B * sin th * v ph * legD k (dirx th ph)) * sin th + legP k (dirx th ph) * 0)).
    - intros p t. apply (mul_d (fun ph => legP k (dirx t ph)) (fun _ => sin t)); [|apply const_d].
      apply (comp_d (legP k) (fun ph => dirx t ph)); [apply dirx_ph|apply legP_derive].
    - intros p t. unfold v. c2.
    - intros p t. apply P_cont.
  Qed.
  Definition dM (ph th : R) : R := (B * sin th * v ph * legE k (dirx th ph)) * (B * v ph) + legD k (dirx th ph) * (B * - u ph).
  Lemma dM_cont th ph : continuous (fun th => dM ph th) th.
  Proof.
    unfold dM.
    assert (E1 : continuous (fun th => legE k (dirx th ph)) th) by (refine (edc _ th _); destruct (legE_ex k (dirx th ph)) as [l Hl]; eexists; apply (comp_d (legE k) (fun th => dirx th ph)); [apply dirx_th|exact Hl]).
    assert (E2 : continuous (fun th => legD k (dirx th ph)) th) by (refine (edc _ th _); eexists; apply (comp_d (legD k) (fun th => dirx th ph)); [apply dirx_th|apply legD_derive]).
    apply cont_add; apply cont_mul; try apply cont_const; [|exact E2].
    apply cont_mul; [|exact E1]. refine (edc _ th _). auto_derive. exact I.
  Qed.
  Lemma M_derive ph : is_derive Mk ph (RInt (fun th => dM ph th) 0 PI).
  Proof.
    unfold Mk. apply (param_derive (fun ph th => legD k (dirx th ph) * (B * v ph)) dM).
    - intros p t. unfold dM. apply (mul_d (fun ph => legD k (dirx t ph)) (fun ph => B * v ph)).
      + apply (comp_d (legD k) (fun ph => dirx t ph)); [apply dirx_ph|apply legD_derive].
      + pose proof (mul_d (fun _ => B) v p 0 (- u p) (const_d _ _) (v_d p)) as X. replace (B * - u p) with (0 * v p + B * - u p) by ring. exact X.
    - intros p t. unfold dM, u, v. c2.
    - intros p t. refine (edc _ t _). eexists. apply (mul_d (fun th => legD k (dirx th p)) (fun _ => B * v p)); [|apply const_d].
      apply (comp_d (legD k) (fun th => dirx th p)); [apply dirx_th|apply legD_derive].
  Qed.
  (** Laplace's equation on the sphere, integrated over theta *)
  Lemma M_J ph : RInt (fun th => dM ph th) 0 PI = - (INR k * (INR k + 1)) * Jk ph.
  Proof.
    set (c := INR k * (INR k + 1)).
    set (dA := fun th => - c * (legP k (dirx th ph) * sin th) + (-1) * dM ph th).
    assert (D : forall th, is_derive (fun th => sin th * (legD k (dirx th ph) * (- A * sin th + B * cos th * u ph))) th (dA th)).
    { intros th. pose proof (comp_d (legD k) (fun th => dirx th ph) th _ _ (dirx_th th ph) (legD_derive k (dirx th ph))) as H1.
      assert (H2 : is_derive (fun th => - A * sin th + B * cos th * u ph) th (- A * cos th - B * sin th * u ph)) by (auto_derive; [exact I|ring]).
      pose proof (mul_d _ _ _ _ _ (is_derive_sin th) (mul_d _ _ _ _ _ H1 H2)) as H3. cbv beta in H3.
      eapply is_derive_ext; [intros; reflexivity|]. replace (dA th) with (cos th * (legD k (dirx th ph) * (- A * sin th + B * cos th * u ph)) +
        sin th * ((- A * sin th + B * cos th * u ph) * legE k (dirx th ph) * (- A * sin th + B * cos th * u ph) + legD k (dirx th ph) * (- A * cos th - B * sin th * u ph))); [exact H3|].
      unfold dA, dM. pose proof (leg_ode2 k (dirx th ph)) as O. fold c in O.
      replace (- c * (legP k (dirx th ph) * sin th)) with ((- c * legP k (dirx th ph)) * sin th) by ring. rewrite <- O.
      pose proof (uv ph) as UV. pose proof (sin2_cos2 th) as SC. unfold Rsqr in SC.
      set (K := legD k (dirx th ph)). set (E := legE k (dirx th ph)).
      assert (X1 : (- A * sin th + B * cos th * u ph) * (- A * sin th + B * cos th * u ph) + B * B * (v ph * v ph) = 1 - dirx th ph * dirx th ph).
      { apply Rminus_diag_uniq. unfold dirx. fold (u ph).
        transitivity ((A * A + B * B * (u ph * u ph)) * (sin th * sin th + cos th * cos th - 1) + B * B * (u ph * u ph + v ph * v ph - 1) + (A * A + B * B - 1)); [ring|].
        rewrite SC, UV, AB. ring. }
      rewrite <- X1.
      assert (X2 : 2 * dirx th ph * sin th = - (cos th * (- A * sin th + B * cos th * u ph) + sin th * (- A * cos th - B * sin th * u ph) - B * u ph)).
      { apply Rminus_diag_uniq. unfold dirx. fold (u ph). transitivity (B * u ph * (sin th * sin th + cos th * cos th - 1)); [ring|]. rewrite SC. ring. }
      transitivity (sin th * E * (- A * sin th + B * cos th * u ph) ^ 2 + K * (cos th * (- A * sin th + B * cos th * u ph) + sin th * (- A * cos th - B * sin th * u ph))); [ring|].
      replace (cos th * (- A * sin th + B * cos th * u ph) + sin th * (- A * cos th - B * sin th * u ph)) with (B * u ph - 2 * dirx th ph * sin th) by lra. ring. }
    assert (C : forall th, continuous dA th).
    { intros th. unfold dA. apply cont_add; apply cont_mul; try apply cont_const; [apply P_cont|apply dM_cont]. }
    pose proof (is_RInt_derive _ _ 0 PI (fun x _ => D x) (fun x _ => C x)) as I0. cbv beta in I0. rewrite sin_0, sin_PI, !Rmult_0_l in I0.
    pose proof (int_lin _ _ 0 PI (- c) (-1) _ _ (J_int ph) (int_cont (fun th => dM ph th) 0 PI (fun th => dM_cont th ph))) as I1.
    apply rint_val in I0. apply rint_val in I1. change (fun x => - c * (legP k (dirx x ph) * sin x) + -1 * dM ph x) with dA in I1. rewrite I0 in I1. match type of I1 with ?m = _ => change m with (0 + - 0) in I1 end. lra.
  Qed.
  Lemma sphere_leg : (1 <= k)%nat -> is_sphere (fun th ph => legP k (dirx th ph)) 0.
  Proof.
    intros Hk. exists Jk. split; [exact J_int|]. set (c := INR k * (INR k + 1)).
    assert (Pc : 0 < c). { unfold c. assert (0 < INR k) by (apply lt_0_INR; lia). apply Rmult_lt_0_compat; lra. }
    assert (D : forall ph, is_derive (fun ph => - / c * Mk ph) ph (Jk ph)).
    { intros ph. replace (Jk ph) with (0 * Mk ph + - / c * (- c * Jk ph)) by (field; lra).
      apply (mul_d (fun _ => - / c) Mk); [apply const_d|]. unfold c. rewrite <- M_J. apply M_derive. }
    pose proof (is_RInt_derive _ _ 0 (2 * PI) (fun x _ => D x) (fun x _ => J_cont x)) as X. cbv beta in X.
    assert (Per : Mk (2 * PI) = Mk 0).
    { unfold Mk. apply RInt_ext. intros th _. unfold dirx, v. rewrite cos_2PI, sin_2PI, cos_0, sin_0. reflexivity. }
    rewrite Per in X. eapply is_val; [exact X|]. change (- / c * Mk 0 + - (- / c * Mk 0) = 0). ring.
  Qed.
End Direction.

(** ** uniform limits *)
Lemma int_limit (f : nat -> R -> R) (g : R -> R) a b (h : nat -> R) (e : nat -> R) (l : R) :
  (forall n, is_RInt (f n) a b (h n)) -> (forall n x, Rabs (f n x - g x) <= e n) -> is_lim_seq e 0 -> is_lim_seq h l -> is_RInt g a b l.
Proof.
  intros H U E L. destruct (filterlim_RInt f a b eventually _ g h H) as (If & L' & I).
  - apply filterlim_locally. intros eps. apply is_lim_seq_spec in E. specialize (E eps). destruct E as [N HN]. exists N. intros n Hn x.
    specialize (HN n Hn). specialize (U n x). rewrite Rminus_0_r in HN. change (Rabs (f n x - g x) < eps).
    eapply Rle_lt_trans; [exact U|]. eapply Rle_lt_trans; [apply Rle_abs|exact HN].
  - assert (Eq : Finite If = Finite l); [|injection Eq as <-; exact I].
    rewrite <- (is_lim_seq_unique h l L). symmetry. exact (is_lim_seq_unique h (Finite If) L').
Qed.
Lemma sphere_limit (f : nat -> R -> R -> R) (g : R -> R -> R) (h e : nat -> R) (l : R) :
  (forall n, is_sphere (f n) (h n)) -> (forall n th ph, Rabs (f n th ph - g th ph) <= e n) -> is_lim_seq e 0 -> is_lim_seq h l -> is_sphere g l.
Proof.
  intros H U E L. set (J := fun n ph => RInt (fun th => f n th ph * sin th) 0 PI).
  assert (JJ : forall n, (forall ph, is_RInt (fun th => f n th ph * sin th) 0 PI (J n ph)) /\ is_RInt (J n) 0 (2 * PI) (h n)).
  { intros n. destruct (H n) as (K & A & B). assert (Q : forall ph, K ph = J n ph) by (intros ph; symmetry; apply rint_val, A).
    split; [intros ph; rewrite <- Q; apply A|]. eapply int_ext; [exact Q|exact B]. }
  assert (e0 : forall n, 0 <= e n) by (intros n; eapply Rle_trans; [apply Rabs_pos|apply (U n 0 0)]).
  assert (US : forall n ph th, Rabs (f n th ph * sin th - g th ph * sin th) <= e n).
  { intros n ph th. replace (f n th ph * sin th - g th ph * sin th) with ((f n th ph - g th ph) * sin th) by ring.
    apply mul_le1; [apply U|]. apply Rabs_le. pose proof (SIN_bound th). lra. }
  (* the inner integrals exist and are uniform limits *)
  assert (In : forall ph, exists l, is_RInt (fun th => g th ph * sin th) 0 PI l).
  { intros ph. destruct (filterlim_RInt (fun n th => f n th ph * sin th) 0 PI eventually _ (fun th => g th ph * sin th) (fun n => J n ph) (fun n => proj1 (JJ n) ph)) as (If & _ & I).
    - apply filterlim_locally. intros eps. apply is_lim_seq_spec in E. destruct (E eps) as [N HN]. exists N. intros n Hn x.
      specialize (HN n Hn). rewrite Rminus_0_r in HN. change (Rabs (f n x ph * sin x - g x ph * sin x) < eps).
      eapply Rle_lt_trans; [apply US|]. eapply Rle_lt_trans; [apply Rle_abs|exact HN].
    - eauto. }
  set (G := fun ph => RInt (fun th => g th ph * sin th) 0 PI).
  assert (GI : forall ph, is_RInt (fun th => g th ph * sin th) 0 PI (G ph)).
  { intros ph. destruct (In ph) as [l' Hl]. apply rint_ok. now exists l'. }
  exists G. split; [exact GI|].
  apply (int_limit J G 0 (2 * PI) h (fun n => PI * e n) l).
  - intros n. apply JJ.
  - intros n ph. pose proof (int_lin _ _ 0 PI 1 (-1) _ _ (proj1 (JJ n) ph) (GI ph)) as D.
    replace (J n ph - G ph) with (1 * J n ph + -1 * G ph) by ring.
    eapply Rle_trans; [refine (norm_RInt_le_const (V := R_NormedModule) _ 0 PI _ (e n) (Rlt_le _ _ PI_RGT_0) _ D)|lra].
    intros x _. change (Rabs (1 * (f n x ph * sin x) + -1 * (g x ph * sin x)) <= e n).
    replace (1 * (f n x ph * sin x) + -1 * (g x ph * sin x)) with (f n x ph * sin x - g x ph * sin x) by ring. apply US.
  - replace (Finite 0) with (Rbar_mult PI 0) by (simpl; f_equal; ring). apply is_lim_seq_scal_l. exact E.
  - exact L.
Qed.

(** ** Legendre sums and the documented phase functions *)
Lemma dirx_angle t0 th p0 ph : cos_angle (mk_gen (-1) 1 1) t0 th p0 ph = dirx (- cos t0) (sin t0) p0 th ph.
Proof. unfold cos_angle, dirx. cbn [ga0 ga1 ga2]. ring. Qed.
Section Dir.
  Context (A B p0 : R) (AB : A * A + B * B = 1).
  Notation X th ph := (dirx A B p0 th ph).
  Lemma sphere_series c N : is_sphere (fun th ph => leg_series c (S N) (X th ph)) (4 * PI * c 0%nat).
  Proof.
    induction N as [|N IH].
    - eapply sphere_ext; [|apply (sphere_const (c 0%nat))]. intros th ph. cbn [leg_series]. rewrite legP_0. ring.
    - pose proof (sphere_lin _ _ 1 (c (S N)) _ _ IH (sphere_leg A B p0 AB (S N) ltac:(lia))) as H.
      replace (4 * PI * c 0%nat) with (1 * (4 * PI * c 0%nat) + c (S N) * 0) by ring. eapply sphere_ext; [|exact H].
      intros th ph. cbv beta. cbn [leg_series]. ring.
  Qed.
  Lemma sphere_approx c (p : R -> R) e : (forall n x, Rabs x <= 1 -> Rabs (leg_series c (S n) x - p x) <= e n) -> is_lim_seq e 0 ->
    is_sphere (fun th ph => p (X th ph)) (4 * PI * c 0%nat).
  Proof.
    intros H E. apply (sphere_limit (fun n th ph => leg_series c (S n) (X th ph)) _ (fun _ => 4 * PI * c 0%nat) e).
    - intros n. apply sphere_series.
    - intros n th ph. apply H. now apply dirx_le.
    - exact E.
    - apply is_lim_seq_const.
  Qed.
  Lemma sphere_hg t : Rabs t < 1 -> is_sphere (fun th ph => p_hg t (X th ph)) 1.
  Proof.
    intros Ht. pose proof PI_RGT_0. replace 1 with (4 * PI * (/ (4 * PI) * hg_coef t 0)) by (unfold hg_coef; simpl; field; lra).
    assert (SE : forall n x, leg_series (fun k => / (4 * PI) * hg_coef t k) n x = / (4 * PI) * leg_series (hg_coef t) n x).
    { induction n as [|n IH]; intros x; [simpl; ring|]. cbn [leg_series]. rewrite IH. ring. }
    apply (sphere_approx (fun k => / (4 * PI) * hg_coef t k) (p_hg t) (fun n => / (4 * PI) * hg_tail t (S n))).
    - intros n x Hx. rewrite SE. unfold p_hg. replace (/ (4 * PI) * leg_series (hg_coef t) (S n) x - hg t x / (4 * PI)) with (/ (4 * PI) * - (hg t x - leg_series (hg_coef t) (S n) x)) by (field; lra).
      rewrite Rabs_mult, Rabs_Ropp. assert (0 < / (4 * PI)) by (apply Rinv_0_lt_compat; lra). rewrite (Rabs_pos_eq (/ (4 * PI))) by lra.
      apply Rmult_le_compat_l; [lra|]. now apply hg_error.
    - replace (Finite 0) with (Rbar_mult (/ (4 * PI)) 0) by (simpl; f_equal; ring). apply is_lim_seq_scal_l.
      apply (proj1 (is_lim_seq_incr_1 (hg_tail t) 0)). now apply hg_tail_lim.
  Qed.
  Lemma sphere_rayleigh : is_sphere (fun th ph => p_rayleigh (X th ph)) 1.
  Proof.
    pose proof PI_RGT_0. pose proof (sphere_series c_rayleigh 2) as H0.
    replace (4 * PI * c_rayleigh 0) with 1 in H0 by (unfold c_rayleigh, delta; simpl; field; lra).
    eapply sphere_ext; [|exact H0]. intros th ph. cbn [leg_series]. rewrite legP_SS, legP_1, legP_0. unfold c_rayleigh, delta, p_rayleigh. simpl. field. lra.
  Qed.
  Lemma sphere_hgrayleigh t : Rabs t < 1 -> is_sphere (fun th ph => p_hgrayleigh t (X th ph)) 1.
  Proof.
    intros Ht. pose proof PI_RGT_0. set (K := 3 / (8 * PI) * (1 / (2 + t ^ 2))).
    assert (T : 0 < 2 + t ^ 2) by (pose proof (pow2_ge_0 t); lra).
    assert (PK : 0 < K) by (unfold K; apply Rmult_lt_0_compat; apply Rdiv_lt_0_compat; lra).
    replace 1 with (4 * PI * (K * hgr_coef t 0)) by (unfold K, hgr_coef, hg_coef, xmul, hgb; simpl; simpl in T; field; lra).
    assert (SE : forall n x, leg_series (fun k => K * hgr_coef t k) n x = K * leg_series (hgr_coef t) n x).
    { induction n as [|n IH]; intros x; [simpl; ring|]. cbn [leg_series]. rewrite IH. ring. }
    apply (sphere_limit (fun n th ph => leg_series (fun k => K * hgr_coef t k) (S (S n)) (X th ph)) _ (fun _ => 4 * PI * (K * hgr_coef t 0)) (fun n => K * hgr_tail t n)).
    - intros n. apply (sphere_series (fun k => K * hgr_coef t k)).
    - intros n th ph. pose proof (dirx_le A B p0 AB th ph) as Hx. rewrite SE. unfold p_hgrayleigh. fold K.
      replace (K * leg_series (hgr_coef t) (S (S n)) (X th ph) - K * (1 + X th ph ^ 2) * hg t (X th ph))
        with (K * - ((1 + X th ph ^ 2) * hg t (X th ph) - leg_series (hgr_coef t) (S (S n)) (X th ph))) by ring.
      rewrite Rabs_mult, Rabs_Ropp, (Rabs_pos_eq K) by lra. apply Rmult_le_compat_l; [lra|]. now apply hgr_error.
    - replace (Finite 0) with (Rbar_mult K 0) by (simpl; f_equal; ring). apply is_lim_seq_scal_l. now apply hgr_tail_lim.
    - apply is_lim_seq_const.
  Qed.
End Dir.
