(** Exponential integrals and the closed form of the first-order interaction integral.
    Pure real analysis; [En] and [Ei] are the functions of Xr.v. *)
From Verif Require Import Xr.
From Coquelicot Require Import Coquelicot.
From Coq Require Import Lia.
Open Scope R_scope.

Lemma edc (f : R -> R) (x : R) : ex_derive f x -> continuous f x.
Proof. apply (@ex_derive_continuous R_AbsRing R_NormedModule). Qed.

Lemma rint_ok (f : R -> R) (a b : R) : ex_RInt f a b -> is_RInt f a b (RInt f a b).
Proof. apply (@RInt_correct R_CompleteNormedModule). Qed.
Lemma rint_val (f : R -> R) (a b l : R) : is_RInt f a b l -> RInt f a b = l.
Proof. apply (@is_RInt_unique R_CompleteNormedModule). Qed.

Lemma dinv (x : R) : x <> 0 -> is_derive Rinv x (- / (x * x)).
Proof. intros H. auto_derive; [exact H|field; exact H]. Qed.
Lemma dopp (x : R) : is_derive Ropp x (-1).
Proof. auto_derive; [exact I|ring]. Qed.

(** ** Continuous extensions *)
Definition h1 (v : R) : R := if Rle_dec v 0 then 0 else exp (- / v) / v.
Definition e0 (tau u : R) : R := if Rle_dec u 0 then 0 else exp (- tau / u).
Definition phi1 (v : R) : R := if Req_EM_T v 0 then 1 else (exp v - 1) / v.

Lemma exp_sq x : 0 < x -> exp (- x) <= 4 / (x * x).
Proof.
  intros H. rewrite exp_Ropp. apply Rmult_le_reg_l with (exp x); [apply exp_pos|].
  rewrite Rinv_r by (apply Rgt_not_eq, exp_pos).
  assert (E : x / 2 <= exp (x / 2)) by (left; pose proof (exp_ineq1_le (x / 2)); lra).
  assert (X : exp x = exp (x / 2) * exp (x / 2)) by (rewrite <- exp_plus; f_equal; field).
  assert (P : 0 < x * x) by (apply Rmult_lt_0_compat; assumption).
  apply Rmult_le_reg_r with (x * x); [assumption|].
  replace (exp x * (4 / (x * x)) * (x * x)) with (4 * exp x) by (field; lra). rewrite X.
  assert (x / 2 * (x / 2) <= exp (x / 2) * exp (x / 2)) by (apply Rmult_le_compat; lra). lra.
Qed.

Lemma loc_gt (x y : R) : y < x -> locally x (fun t => y < t).
Proof. intros H. apply (open_gt y). exact H. Qed.
Lemma loc_lt (x y : R) : x < y -> locally x (fun t => t < y).
Proof. intros H. apply (open_lt y). exact H. Qed.

Lemma small_cont (f : R -> R) (K : R) : 0 < K -> f 0 = 0 -> (forall v, Rabs (f v) <= K * Rabs v) -> continuous f 0.
Proof.
  intros HK H0 Hb. apply filterlim_locally. intros eps. rewrite H0.
  assert (P : 0 < eps / K) by (apply Rdiv_lt_0_compat; [apply cond_pos|assumption]).
  exists (mkposreal _ P). intros y Hy. change (Rabs (f y - 0) < eps). change (Rabs (y - 0) < eps / K) in Hy.
  rewrite Rminus_0_r in *. eapply Rle_lt_trans; [apply Hb|].
  apply Rmult_lt_compat_l with (r := K) in Hy; [|assumption]. replace (K * (eps / K)) with (pos eps) in Hy by (field; lra). exact Hy.
Qed.

Lemma h1_cont v : continuous h1 v.
Proof.
  destruct (Rtotal_order v 0) as [H|[->|H]].
  - apply (continuous_ext_loc h1 (fun _ => 0)); [|apply continuous_const].
    apply filter_imp with (2 := loc_lt v 0 H). intros y Hy. unfold h1. destruct (Rle_dec y 0); [reflexivity|lra].
  - apply (small_cont h1 4); [lra| |].
    + unfold h1. destruct (Rle_dec 0 0); [reflexivity|lra].
    + intros v. unfold h1. destruct (Rle_dec v 0).
      * rewrite Rabs_R0. apply Rmult_le_pos; [lra|apply Rabs_pos].
      * assert (P : 0 < v) by lra. assert (Q : 0 < / v) by (now apply Rinv_0_lt_compat).
        pose proof (exp_sq (/ v) Q). pose proof (exp_pos (- / v)).
        rewrite !Rabs_pos_eq by (try lra; apply Rmult_le_pos; lra).
        apply Rmult_le_reg_r with v; [assumption|]. unfold Rdiv. rewrite Rmult_assoc, Rinv_l, Rmult_1_r by lra.
        replace (4 / (/ v * / v)) with (4 * v * v) in H by (field; lra). lra.
  - apply (continuous_ext_loc h1 (fun v => exp (- / v) / v)).
    + apply filter_imp with (2 := loc_gt v 0 H). intros y Hy. unfold h1. destruct (Rle_dec y 0); [lra|reflexivity].
    + apply edc. auto_derive. lra.
Qed.
Lemma e0_cont tau u : 0 < tau -> continuous (e0 tau) u.
Proof.
  intros Ht. destruct (Rtotal_order u 0) as [H|[->|H]].
  - apply (continuous_ext_loc (e0 tau) (fun _ => 0)); [|apply continuous_const].
    apply filter_imp with (2 := loc_lt u 0 H). intros y Hy. unfold e0. destruct (Rle_dec y 0); [reflexivity|lra].
  - apply (small_cont (e0 tau) (2 / tau)).
    + apply Rdiv_lt_0_compat; lra.
    + unfold e0. destruct (Rle_dec 0 0); [reflexivity|lra].
    + intros v. unfold e0. destruct (Rle_dec v 0).
      * rewrite Rabs_R0. apply Rmult_le_pos; [|apply Rabs_pos]. left. apply Rdiv_lt_0_compat; lra.
      * assert (P : 0 < v) by lra. assert (Q : 0 < tau / v) by (now apply Rdiv_lt_0_compat).
        rewrite (Rabs_pos_eq v) by lra. rewrite Rabs_pos_eq by (left; apply exp_pos).
        replace (- tau / v) with (- (tau / v)) by (field; lra).
        rewrite exp_Ropp. pose proof (exp_ineq1_le (tau / v)).
        apply Rle_trans with (/ (tau / v)); [apply Rinv_le_contravar; lra|].
        replace (/ (tau / v)) with (v / tau) by (field; lra).
        unfold Rdiv. rewrite Rmult_comm, Rmult_assoc. assert (0 <= / tau * v) by (apply Rmult_le_pos; [left; now apply Rinv_0_lt_compat|lra]). lra.
  - apply (continuous_ext_loc (e0 tau) (fun v => exp (- tau / v))).
    + apply filter_imp with (2 := loc_gt u 0 H). intros y Hy. unfold e0. destruct (Rle_dec y 0); [lra|reflexivity].
    + apply edc. auto_derive. lra.
Qed.
Lemma phi1_cont v : continuous phi1 v.
Proof.
  destruct (Req_dec v 0) as [->|H].
  - apply filterlim_locally. intros eps. destruct (derivable_pt_lim_exp_0 eps (cond_pos eps)) as (d & Hd).
    exists d. intros y Hy. change (Rabs (y - 0) < d) in Hy. rewrite Rminus_0_r in Hy.
    change (Rabs (phi1 y - phi1 0) < eps). unfold phi1. destruct (Req_EM_T 0 0); [|lra].
    destruct (Req_EM_T y 0) as [->|N].
    + replace (1 - 1) with 0 by ring. rewrite Rabs_R0. apply cond_pos.
    + specialize (Hd y N Hy). rewrite Rplus_0_l, exp_0 in Hd. exact Hd.
  - apply (continuous_ext_loc phi1 (fun v => (exp v - 1) / v)).
    + assert (L : locally v (fun t => t <> 0)) by (apply (open_neq 0); exact H).
      apply filter_imp with (2 := L). intros y Hy. unfold phi1. destruct (Req_EM_T y 0); [contradiction|reflexivity].
    + apply edc. auto_derive. assumption.
Qed.

Lemma cont_int (f : R -> R) (Hf : forall x, continuous f x) (a b : R) : ex_RInt f a b.
Proof. apply (ex_RInt_continuous f). intros; apply Hf. Qed.
Lemma ftc (f : R -> R) (Hf : forall x, continuous f x) (x : R) : is_derive (fun x => RInt f 0 x) x (f x).
Proof.
  apply (is_derive_RInt f (fun x => RInt f 0 x) 0 x); [|apply Hf].
  apply filter_forall. intros y. apply rint_ok. now apply cont_int.
Qed.

Definition H1 (x : R) : R := RInt h1 0 x.
Definition Ein (z : R) : R := RInt phi1 0 z.
Lemma H1_0 : H1 0 = 0. Proof. unfold H1. now rewrite RInt_point. Qed.
Lemma Ein_0 : Ein 0 = 0. Proof. unfold Ein. now rewrite RInt_point. Qed.
Lemma H1_derive x : is_derive H1 x (h1 x). Proof. apply ftc, h1_cont. Qed.
Lemma Ein_derive x : is_derive Ein x (phi1 x). Proof. apply ftc, phi1_cont. Qed.

(** E_1 *)
Lemma is_E1 tau : 0 < tau -> is_RInt (En_integrand 1 tau) 0 1 (H1 (/ tau)).
Proof.
  intros H. pose proof (Rinv_0_lt_compat _ H) as H'.
  apply (is_RInt_ext (fun y => scal (/ tau) (h1 (/ tau * y + 0)))).
  - intros y Hy. rewrite Rmin_left, Rmax_right in Hy by lra.
    unfold scal; simpl; unfold mult; simpl. rewrite Rplus_0_r. unfold h1, En_integrand.
    assert (P : 0 < / tau * y) by (apply Rmult_lt_0_compat; lra).
    destruct (Rle_dec (/ tau * y) 0); [lra|].
    replace (- / (/ tau * y)) with (- tau / y) by (field; lra). field. lra.
  - apply (is_RInt_comp_lin h1 (/ tau) 0 0 1). rewrite Rmult_0_r, Rmult_1_r, !Rplus_0_r.
    apply rint_ok, cont_int, h1_cont.
Qed.
Lemma E1_H tau : 0 < tau -> En 1 tau = H1 (/ tau).
Proof. intros H. apply rint_val. now apply is_E1. Qed.
Lemma E1_derive z : 0 < z -> is_derive (fun z => H1 (/ z)) z (- exp (- z) / z).
Proof.
  intros H. pose proof (Rinv_0_lt_compat _ H) as H'.
  evar_last. { apply (is_derive_comp H1 Rinv z); [apply H1_derive|]. apply dinv. lra. }
  unfold scal; simpl; unfold mult; simpl. unfold h1. destruct (Rle_dec (/ z) 0); [lra|]. rewrite Rinv_inv. field. lra.
Qed.

(** Ei = c + ln|z| + Ein *)
Definition cE : R := - H1 1 - Ein (-1).
Lemma E1_Ein z : 0 < z -> - H1 (/ z) - ln z = cE + Ein (- z).
Proof.
  intros H.
  set (F := fun z => - H1 (/ z) - ln z - Ein (- z)).
  assert (D : forall t, 0 < t -> is_derive F t 0).
  { intros t Ht. unfold F.
    evar_last. { apply (is_derive_minus (fun z => - H1 (/ z) - ln z) (fun z => Ein (- z))).
      - apply (is_derive_minus (fun z => - H1 (/ z)) ln).
        + apply (is_derive_opp (fun z => H1 (/ z))). now apply E1_derive.
        + apply is_derive_Reals. now apply derivable_pt_lim_ln.
      - apply (is_derive_comp Ein Ropp t); [apply Ein_derive|]. apply dopp. }
    unfold minus, plus, opp, scal; simpl; unfold mult; simpl. unfold phi1. destruct (Req_EM_T (- t) 0); [lra|]. field. lra. }
  assert (E : F z = F 1).
  { destruct (Rtotal_order z 1) as [L|[->|L]]; [|reflexivity|].
    - apply (eq_is_derive F z 1); [|assumption]. intros t Ht. apply D. lra.
    - symmetry. apply (eq_is_derive F 1 z); [|assumption]. intros t Ht. apply D. lra. }
  unfold F in E. rewrite Rinv_1, ln_1 in E. unfold cE. replace (-1) with (- (1)) by ring. lra.
Qed.
Lemma is_sinh z : 0 < z -> is_RInt (fun u => (exp (z * u) - exp (- (z * u))) / u) 0 1 (Ein z - Ein (- z)).
Proof.
  intros H.
  assert (A : forall k, k <> 0 -> is_RInt (fun y => (exp (k * y) - 1) / y) 0 1 (Ein k)).
  { intros k Hk. apply (is_RInt_ext (fun y => scal k (phi1 (k * y + 0)))).
    - intros y Hy. rewrite Rmin_left, Rmax_right in Hy by lra.
      unfold scal; simpl; unfold mult; simpl. rewrite Rplus_0_r. unfold phi1.
      destruct (Req_EM_T (k * y) 0) as [E|N]; [exfalso; apply Rmult_integral in E; lra|]. field. lra.
    - apply (is_RInt_comp_lin phi1 k 0 0 1). rewrite Rmult_0_r, Rmult_1_r, !Rplus_0_r.
      apply rint_ok, cont_int, phi1_cont. }
  apply (is_RInt_ext (fun y => minus ((exp (z * y) - 1) / y) ((exp (- z * y) - 1) / y))).
  - intros y Hy. rewrite Rmin_left, Rmax_right in Hy by lra. unfold minus, plus, opp; simpl.
    replace (- z * y) with (- (z * y)) by ring. field. lra.
  - apply (is_RInt_minus (V := R_NormedModule)); apply A; lra.
Qed.
Lemma Ei_val z : z <> 0 -> Ei z = cE + ln (Rabs z) + Ein z.
Proof.
  intros N. unfold Ei. destruct (Rlt_dec z 0) as [L|L].
  - rewrite E1_H by lra. rewrite Rabs_left by assumption.
    pose proof (E1_Ein (- z)) as E. rewrite Ropp_involutive in E. lra.
  - assert (P : 0 < z) by lra. rewrite E1_H by assumption. rewrite (rint_val _ _ _ _ (is_sinh z P)).
    rewrite Rabs_pos_eq by lra. pose proof (E1_Ein z P). lra.
Qed.

(** ** The interaction integral *)
Section Interaction.
  Context (mu0 tau : R).
  Hypothesis (Hm : 0 < mu0 < 1) (Ht : 0 < tau).
  Let A : R := exp (- tau / mu0).
  Definition zz (mu : R) : R := tau / mu0 - tau / mu.
  (** continuous extension of (A - exp(-tau/mu))/(mu0 - mu) *)
  Definition gc (mu : R) : R :=
    if Rle_dec mu (mu0 / 2) then (A - e0 tau mu) / (mu0 - mu) else A * phi1 (zz mu) * (tau / (mu0 * mu)).
  Lemma A_zz mu : 0 < mu -> A * exp (zz mu) = exp (- tau / mu).
  Proof. intros H. unfold A, zz. rewrite <- exp_plus. f_equal. field. lra. Qed.
  Lemma zz_eq mu : 0 < mu -> zz mu = tau * (mu - mu0) / (mu0 * mu).
  Proof. intros H. unfold zz. field. lra. Qed.
  Lemma zz_ne mu : 0 < mu -> mu <> mu0 -> zz mu <> 0.
  Proof.
    intros H N. rewrite zz_eq by assumption. apply Rmult_integral_contrapositive_currified.
    - apply Rmult_integral_contrapositive_currified; lra.
    - apply Rinv_neq_0_compat. apply Rmult_integral_contrapositive_currified; lra.
  Qed.
  Lemma phi_form mu : 0 < mu -> mu <> mu0 -> A * phi1 (zz mu) * (tau / (mu0 * mu)) = (A - exp (- tau / mu)) / (mu0 - mu).
  Proof.
    intros H N. pose proof (zz_ne mu H N) as Z. unfold phi1. destruct (Req_EM_T (zz mu) 0); [contradiction|].
    rewrite <- A_zz by assumption. set (E := exp (zz mu)). rewrite (zz_eq mu H). field. lra.
  Qed.
  Lemma gc_val mu : 0 < mu -> mu <> mu0 -> gc mu = (A - exp (- tau / mu)) / (mu0 - mu).
  Proof.
    intros H N. unfold gc. destruct (Rle_dec mu (mu0 / 2)).
    - unfold e0. destruct (Rle_dec mu 0); [lra|reflexivity].
    - now apply phi_form.
  Qed.
  Lemma gc_cont mu : continuous gc mu.
  Proof.
    destruct (Rlt_dec mu mu0) as [L|L].
    - apply (continuous_ext_loc gc (fun mu => (A - e0 tau mu) / (mu0 - mu))).
      + apply filter_imp with (2 := loc_lt mu mu0 L). intros y Hy. unfold gc. destruct (Rle_dec y (mu0 / 2)); [reflexivity|].
        rewrite phi_form by lra. unfold e0. destruct (Rle_dec y 0); [lra|reflexivity].
      + apply (continuous_mult (fun mu => A - e0 tau mu) (fun mu => / (mu0 - mu))).
        * apply (continuous_minus (fun _ => A) (e0 tau)); [apply continuous_const|now apply e0_cont].
        * apply edc. auto_derive. lra.
    - apply (continuous_ext_loc gc (fun mu => A * phi1 (zz mu) * (tau / (mu0 * mu)))).
      + assert (L' : mu0 / 2 < mu) by lra. apply filter_imp with (2 := loc_gt mu (mu0 / 2) L'). intros y Hy. unfold gc.
        destruct (Rle_dec y (mu0 / 2)); [lra|reflexivity].
      + apply (continuous_mult (fun mu => A * phi1 (zz mu)) (fun mu => tau / (mu0 * mu))).
        * apply (continuous_mult (fun _ => A) (fun mu => phi1 (zz mu))); [apply continuous_const|].
          apply (continuous_comp zz phi1); [|apply phi1_cont]. apply edc. unfold zz. auto_derive. lra.
        * apply edc. auto_derive. apply Rmult_integral_contrapositive_currified; lra.
  Qed.
  (** primitive on mu > 0 *)
  Definition Phi (mu : R) : R := A * (Ein (zz mu) - ln mu) + H1 (mu / tau).
  Lemma Phi_derive mu : 0 < mu -> is_derive Phi mu (gc mu).
  Proof.
    intros H. unfold Phi.
    assert (D1 : is_derive zz mu (tau / (mu * mu))) by (unfold zz; auto_derive; [lra|field; lra]).
    evar_last. { apply (is_derive_plus (fun mu => A * (Ein (zz mu) - ln mu)) (fun mu => H1 (mu / tau))).
      - apply (is_derive_scal (fun mu => Ein (zz mu) - ln mu) mu A).
        apply (is_derive_minus (fun mu => Ein (zz mu)) ln).
        + apply (is_derive_comp Ein zz mu); [apply Ein_derive|exact D1].
        + apply is_derive_Reals. now apply derivable_pt_lim_ln.
      - apply (is_derive_comp H1 (fun mu => mu / tau) mu); [apply H1_derive|]. instantiate (1 := / tau). auto_derive; [exact I|field; lra]. }
    unfold minus, plus, opp, scal; simpl; unfold mult; simpl.
    assert (P : 0 < mu / tau) by (now apply Rdiv_lt_0_compat).
    replace (h1 (mu / tau)) with (exp (- tau / mu) * (tau / mu)).
    2: { unfold h1. destruct (Rle_dec (mu / tau) 0); [lra|]. replace (- / (mu / tau)) with (- tau / mu) by (field; lra). field. lra. }
    assert (G : gc mu = A * phi1 (zz mu) * (tau / (mu0 * mu))).
    { unfold gc. destruct (Rle_dec mu (mu0 / 2)); [|reflexivity]. rewrite phi_form by lra. unfold e0. destruct (Rle_dec mu 0); [lra|reflexivity]. }
    rewrite G. rewrite <- A_zz by assumption.
    destruct (Req_dec mu mu0) as [E|N].
    - assert (Z : zz mu = 0) by (rewrite zz_eq, E by assumption; field; lra). rewrite Z, exp_0. unfold phi1. destruct (Req_EM_T 0 0); [|lra].
      rewrite E. field. lra.
    - pose proof (zz_ne mu H N) as Z. unfold phi1. destruct (Req_EM_T (zz mu) 0); [contradiction|].
      set (E := exp (zz mu)). rewrite (zz_eq mu H). field. lra.
  Qed.
  Lemma gc_above x : 0 < x <= 1 -> RInt gc x 1 = Phi 1 - Phi x.
  Proof.
    intros H. apply rint_val. apply (is_RInt_derive Phi gc).
    - intros y Hy. rewrite Rmin_left in Hy by lra. apply Phi_derive. lra.
    - intros y _. apply gc_cont.
  Qed.
  (** the primitive near 0 *)
  Definition Psi (x : R) : R :=
    A * (- H1 (mu0 * x / (tau * (mu0 - x))) - cE - ln tau - ln (mu0 - x) + ln mu0) + H1 (x / tau).
  Lemma Phi_Psi x : 0 < x < mu0 -> Phi x = Psi x.
  Proof.
    intros H. unfold Phi, Psi. f_equal. f_equal.
    assert (Q : 0 < - zz x).
    { rewrite zz_eq by lra. replace (- (tau * (x - mu0) / (mu0 * x))) with (tau * (mu0 - x) / (mu0 * x)) by (field; lra).
      apply Rdiv_lt_0_compat; apply Rmult_lt_0_compat; lra. }
    pose proof (E1_Ein (- zz x) Q) as E. rewrite Ropp_involutive in E.
    assert (Z : - zz x = tau * (mu0 - x) / (mu0 * x)) by (rewrite zz_eq by lra; field; lra).
    replace (/ - zz x) with (mu0 * x / (tau * (mu0 - x))) in E by (rewrite Z; field; lra).
    assert (L : ln (- zz x) = ln tau + ln (mu0 - x) - ln mu0 - ln x).
    { rewrite Z. rewrite ln_div by (apply Rmult_lt_0_compat; lra). rewrite !ln_mult by lra. ring. }
    lra.
  Qed.
  Lemma Psi_cont : continuous Psi 0.
  Proof.
    apply edc. unfold Psi.
    assert (D : forall y, ex_derive H1 y) by (intros y; eexists; apply H1_derive).
    apply (ex_derive_plus (fun x => A * (- H1 (mu0 * x / (tau * (mu0 - x))) - cE - ln tau - ln (mu0 - x) + ln mu0)) (fun x => H1 (x / tau))).
    - apply (ex_derive_scal (fun x => - H1 (mu0 * x / (tau * (mu0 - x))) - cE - ln tau - ln (mu0 - x) + ln mu0) A).
      auto_derive. repeat split; try (apply D); try lra. apply Rmult_integral_contrapositive_currified; lra.
    - auto_derive. apply D.
  Qed.
  Lemma Psi_0 : Psi 0 = A * (- cE - ln tau).
  Proof. unfold Psi. rewrite Rmult_0_r. unfold Rdiv. rewrite !Rmult_0_l, H1_0, Rminus_0_r. ring. Qed.
  Lemma gc_total : RInt gc 0 1 = Phi 1 - Psi 0.
  Proof.
    (* x -> RInt gc x 1 and x -> Phi 1 - Psi x are continuous at 0 and agree for small positive x *)
    set (I := fun x => RInt gc x 1).
    assert (C1 : filterlim I (at_right 0) (locally (I 0))).
    { eapply filterlim_filter_le_1; [apply filter_le_within|].
      apply (edc I 0). unfold I. exists (opp (gc 0)).
      apply (is_derive_RInt' gc (fun x => RInt gc x 1) 0 1); [|apply gc_cont].
      apply filter_forall. intros y. apply rint_ok, cont_int, gc_cont. }
    assert (C2 : filterlim (fun x => Phi 1 - Psi x) (at_right 0) (locally (Phi 1 - Psi 0))).
    { eapply filterlim_filter_le_1; [apply filter_le_within|].
      apply (continuous_minus (fun _ => Phi 1) Psi 0); [apply continuous_const|apply Psi_cont]. }
    assert (C3 : filterlim I (at_right 0) (locally (Phi 1 - Psi 0))).
    { apply filterlim_ext_loc with (2 := C2). exists (mkposreal mu0 (proj1 Hm)). intros y Hy Hp.
      change (Rabs (y - 0) < mu0) in Hy. rewrite Rminus_0_r, Rabs_pos_eq in Hy by lra.
      unfold I. rewrite gc_above by lra. rewrite (Phi_Psi y) by lra. reflexivity. }
    exact (@filterlim_locally_unique R R_AbsRing R_NormedModule (at_right 0) (Proper_StrongProper _ (at_right_proper_filter 0)) I (I 0) (Phi 1 - Psi 0) C1 C3).
  Qed.
  (** hlp1 of the code *)
  Definition hlp1 : R := A * ln (mu0 / (1 - mu0)) - Ei (- tau) + A * Ei (tau / mu0 - tau).
  Lemma base_value : RInt gc 0 1 = hlp1.
  Proof.
    rewrite gc_total, Psi_0. unfold Phi, hlp1.
    assert (Z : zz 1 = tau / mu0 - tau) by (unfold zz; field; lra).
    assert (P : 0 < tau / mu0 - tau).
    { replace (tau / mu0 - tau) with (tau * (1 - mu0) / mu0) by (field; lra). apply Rdiv_lt_0_compat; [|lra]. apply Rmult_lt_0_compat; lra. }
    rewrite Z, ln_1. rewrite (Ei_val (tau / mu0 - tau)) by lra. rewrite Rabs_pos_eq by lra.
    assert (E : Ei (- tau) = - H1 (/ tau)). { unfold Ei. destruct (Rlt_dec (- tau) 0); [|lra]. rewrite Ropp_involutive, E1_H by assumption. reflexivity. }
    rewrite E. replace (1 / tau) with (/ tau) by (field; lra).
    replace (tau / mu0 - tau) with (tau * (1 - mu0) / mu0) at 2 by (field; lra).
    assert (Q : 0 < tau * (1 - mu0)) by (apply Rmult_lt_0_compat; lra).
    rewrite (ln_div (tau * (1 - mu0)) mu0) by lra. rewrite (ln_div mu0 (1 - mu0)) by lra. rewrite (ln_mult tau (1 - mu0)) by lra.
    match goal with |- @eq _ ?a ?b => change (@eq R a b) end. ring.
  Qed.

  Definition kern (mu : R) : R := (A - exp (- tau / mu)) / (mu0 - mu).
  Lemma is_int_ext_pt (f g : R -> R) l : is_RInt f 0 1 l -> (forall u, 0 < u < 1 -> u <> mu0 -> f u = g u) -> is_RInt g 0 1 l.
  Proof.
    intros H E.
    (* split at mu0 *)
    assert (I1 : ex_RInt f 0 mu0). { apply (ex_RInt_Chasles_1 f 0 mu0 1); [lra|]. exists l; exact H. }
    assert (I2 : ex_RInt f mu0 1). { apply (ex_RInt_Chasles_2 f 0 mu0 1); [lra|]. exists l; exact H. }
    destruct I1 as [l1 I1], I2 as [l2 I2].
    assert (J1 : is_RInt g 0 mu0 l1). { apply (is_RInt_ext f); [|exact I1]. intros u. rewrite Rmin_left, Rmax_right by lra. intros Hu. apply E; lra. }
    assert (J2 : is_RInt g mu0 1 l2). { apply (is_RInt_ext f); [|exact I2]. intros u. rewrite Rmin_left, Rmax_right by lra. intros Hu. apply E; lra. }
    pose proof (is_RInt_Chasles f 0 mu0 1 l1 l2 I1 I2) as S. pose proof (is_RInt_Chasles g 0 mu0 1 l1 l2 J1 J2) as T.
    assert (l = plus l1 l2). { rewrite <- (rint_val _ _ _ _ H). now apply rint_val. } now subst l.
  Qed.
  Lemma is_En m : (2 <= m)%nat -> is_RInt (fun u => u ^ (m - 2) * exp (- tau / u)) 0 1 (En m tau).
  Proof.
    intros Hm2.
    assert (I : ex_RInt (En_integrand m tau) 0 1).
    { apply (ex_RInt_ext (fun u => u ^ (m - 2) * e0 tau u)).
      - intros u. rewrite Rmin_left, Rmax_right by lra. intros Hu. destruct m as [|[|k]]; [lia|lia|]. simpl. rewrite Nat.sub_0_r.
        unfold e0. destruct (Rle_dec u 0); [lra|reflexivity].
      - apply cont_int. intros u. apply (continuous_mult (fun u => u ^ (m - 2)) (e0 tau)); [|now apply e0_cont].
        apply edc. auto_derive. exact I. }
    apply (is_RInt_ext (En_integrand m tau)).
    - intros u. rewrite Rmin_left, Rmax_right by lra. intros Hu. destruct m as [|[|k]]; [lia|lia|]. simpl. now rewrite Nat.sub_0_r.
    - apply rint_ok. exact I.
  Qed.
  Lemma is_pow n : is_RInt (fun u => u ^ n) 0 1 (/ INR (n + 1)).
  Proof.
    evar_last. { apply (is_RInt_derive (fun u => u ^ (n + 1) / INR (n + 1)) (fun u => u ^ n)).
      - intros x _. auto_derive; [exact I|]. replace (Init.Nat.pred (n + 1)) with n by lia. field. rewrite Nat.add_1_r. apply not_0_INR. discriminate.
      - intros x _. apply edc. auto_derive. exact I. }
    unfold minus, plus, opp; simpl. rewrite pow1, pow_i by lia. unfold Rdiv. ring.
  Qed.
  (** the sum of the code *)
  Definition inner (k : nat) : R := / mu0 ^ k * (En (k + 1) tau - A / INR k).
  Fixpoint inner_sum (n : nat) : R := match n with O => 0 | S m => inner_sum m + inner (S m) end.
  Lemma kern_base : is_RInt kern 0 1 hlp1.
  Proof.
    apply (is_int_ext_pt gc).
    - rewrite <- base_value. apply rint_ok, cont_int, gc_cont.
    - intros u Hu N. rewrite gc_val by lra. reflexivity.
  Qed.
  Lemma kern_pow n : is_RInt (fun u => u ^ n * kern u) 0 1 (mu0 ^ n * (inner_sum n + hlp1)).
  Proof.
    induction n as [|n IH].
    - apply (is_RInt_ext kern); [intros u _; simpl; ring|]. simpl. replace (1 * (0 + hlp1)) with hlp1 by ring. exact kern_base.
    - assert (I1 := is_RInt_scal _ 0 1 mu0 _ IH). assert (I2 := is_RInt_scal _ 0 1 A _ (is_pow n)).
      assert (I3 := is_En (n + 2) ltac:(lia)). replace (n + 2 - 2)%nat with n in I3 by lia.
      assert (I4 := is_RInt_plus _ _ _ _ _ _ (is_RInt_minus _ _ _ _ _ _ I1 I2) I3).
      match type of I4 with is_RInt ?f _ _ ?l => assert (I5 : is_RInt f 0 1 (mu0 ^ S n * (inner_sum (S n) + hlp1))) end.
      { evar_last; [exact I4|].
        unfold minus, plus, opp, scal; simpl; unfold mult; simpl. unfold inner. replace (S n + 1)%nat with (n + 2)%nat by lia.
        rewrite Nat.add_1_r. assert (M : mu0 ^ n <> 0) by (apply pow_nonzero; lra). simpl pow.
        assert (N : INR (S n) <> 0) by (apply not_0_INR; discriminate). field. repeat split; try assumption; lra. }
      refine (is_int_ext_pt _ _ _ I5 _).
      intros u Hu N. unfold minus, plus, opp, scal; simpl; unfold mult; simpl. unfold kern. field. lra.
  Qed.
End Interaction.
