(** Integrals of products of powers of sine and cosine over a full turn. *)
From Verif Require Import FnModel ExprFacts.
From Coquelicot Require Import Coquelicot.
From Verif Require Import ExpInt.
From Coq Require Import Lia.
Open Scope R_scope.

(** binomial coefficients *)
Lemma binom_0 n : binom n 0 = 1%Z. Proof. destruct n; reflexivity. Qed.
Lemma binom_gt n : forall k, (n < k)%nat -> binom n k = 0%Z.
Proof.
  induction n as [|n IH]; intros [|k] H; try lia; [reflexivity|]. cbn [binom]. rewrite !IH by lia. reflexivity.
Qed.
Lemma binom_fact n : forall k, (k <= n)%nat -> IZR (binom n k) * (INR (fact k) * INR (fact (n - k))) = INR (fact n).
Proof.
  induction n as [|n IH]; intros k H.
  - replace k with O by lia. simpl. lra.
  - destruct k as [|k]; [rewrite binom_0, Nat.sub_0_r; change (INR (fact 0)) with 1; ring|].
    cbn [binom]. rewrite plus_IZR. replace (S n - S k)%nat with (n - k)%nat by lia.
    destruct (Nat.eq_dec k n) as [->|N].
    + rewrite (binom_gt n (S n)) by lia. replace (n - n)%nat with O in * by lia. pose proof (IH n (le_n n)) as A. rewrite Nat.sub_diag in A.
      rewrite !fact_simpl, !mult_INR. simpl (INR (fact 0)) in *. transitivity (INR (S n) * (IZR (binom n n) * (INR (fact n) * 1))); [ring|now rewrite A].
    + pose proof (IH k ltac:(lia)) as A. pose proof (IH (S k) ltac:(lia)) as B.
      assert (F : (n - k = S (n - S k))%nat) by lia.
      rewrite (fact_simpl n), mult_INR. rewrite (fact_simpl k), mult_INR in *.
      rewrite F in *. rewrite (fact_simpl (n - S k)), mult_INR in *.
      assert (E : INR (S n) = INR (S k) + INR (S (n - S k))) by (rewrite <- plus_INR; f_equal; lia).
      rewrite E, Rmult_plus_distr_r.
      set (u := INR (S k)) in *. set (v := INR (S (n - S k))) in *. set (a := INR (fact k)) in *. set (b := INR (fact (n - S k))) in *.
      set (x := IZR (binom n k)) in *. set (y := IZR (binom n (S k))) in *. set (z := INR (fact n)) in *.
      transitivity (u * (x * (a * (v * b))) + v * (y * (u * a * b))); [ring|]. rewrite A, B. ring.
Qed.
Lemma central m : INR (m + 1) * IZR (binom (S (S (m + m))) (S m)) = 2 * (2 * INR m + 1) * IZR (binom (m + m) m).
Proof.
  pose proof (binom_fact (m + m) m ltac:(lia)) as A. pose proof (binom_fact (S (S (m + m))) (S m) ltac:(lia)) as B.
  replace (m + m - m)%nat with m in A by lia. replace (S (S (m + m)) - S m)%nat with (S m) in B by lia.
  rewrite !fact_simpl, !mult_INR in B. rewrite <- A in B.
  assert (N : INR (fact m) <> 0) by apply INR_fact_neq_0.
  assert (M : INR (S m) <> 0) by (apply not_0_INR; discriminate).
  replace (INR (m + 1)) with (INR (S m)) by (f_equal; lia).
  set (x := IZR (binom (S (S (m + m))) (S m))) in *. set (y := IZR (binom (m + m) m)) in *.
  assert (E1 : INR (S (S (m + m))) = 2 * INR (S m)) by (rewrite !S_INR, plus_INR; ring).
  assert (E2 : INR (S (m + m)) = 2 * INR m + 1) by (rewrite !S_INR, plus_INR; ring).
  rewrite E1, E2 in B.
  apply Rmult_eq_reg_r with (INR (S m) * (INR (fact m) * INR (fact m))).
  2: { repeat apply Rmult_integral_contrapositive_currified; assumption. }
  transitivity (x * (INR (S m) * INR (fact m) * (INR (S m) * INR (fact m)))); [ring|]. rewrite B. ring.
Qed.

(** cosintegral over the reals *)
Lemma qpow_R q n : Q2R (qpow q n) = Q2R q ^ n.
Proof. apply Q2R_qpow. Qed.
Lemma cosint_R i : Q2R (cosintegral i) = if Nat.even i then IZR (binom i (Nat.div2 i)) / 2 ^ i else 0.
Proof.
  unfold cosintegral. destruct (Nat.even i).
  - rewrite Q2R_red. assert (N : Q2R (qpow 2 i) = 2 ^ i) by (rewrite qpow_R; f_equal; unfold Q2R; simpl; lra).
    assert (P : 0 < 2 ^ i) by (apply pow_lt; lra).
    rewrite Q2R_div.
    + rewrite N. unfold inject_Z, Q2R at 1. simpl. field. lra.
    + intros E. apply Qeq_eqR in E. rewrite N in E. unfold Q2R in E. simpl in E. lra.
  - unfold Q2R; simpl; lra.
Qed.
Lemma cosint_step n : (INR n + 2) * Q2R (cosintegral (S (S n))) = (INR n + 1) * Q2R (cosintegral n).
Proof.
  rewrite !cosint_R. cbn [Nat.even]. destruct (Nat.even n) eqn:E; [|ring].
  apply Nat.even_spec in E. destruct E as [m ->].
  change (Nat.div2 (S (S (2 * m)))) with (S (Nat.div2 (2 * m))). rewrite Nat.div2_double.
  pose proof (central m) as C. replace (m + m)%nat with (2 * m)%nat in C by lia.
  rewrite mult_INR. simpl (INR 2). rewrite plus_INR in C. simpl (INR 1) in C.
  assert (P : 0 < 2 ^ (2 * m)) by (apply pow_lt; lra).
  change (2 ^ S (S (2 * m))) with (2 * (2 * 2 ^ (2 * m))).
  set (x := IZR (binom (S (S (2 * m))) (S m))) in *. set (y := IZR (binom (2 * m) m)) in *.
  apply Rmult_eq_reg_r with (4 * 2 ^ (2 * m)); [|lra].
  replace ((((1 + 1) * INR m) + 2) * (x / (2 * (2 * 2 ^ (2 * m)))) * (4 * 2 ^ (2 * m))) with (2 * ((INR m + 1) * x)) by (field; lra).
  replace (((1 + 1) * INR m + 1) * (y / 2 ^ (2 * m)) * (4 * 2 ^ (2 * m))) with (2 * (2 * (2 * INR m + 1) * y)) by (field; lra).
  now rewrite C.
Qed.

Lemma cos_cont : forall x, continuous cos x. Proof. intros x. apply edc. auto_derive. exact I. Qed.

Lemma is_cosint i : is_RInt (fun f => cos f ^ i) 0 (2 * PI) (2 * PI * Q2R (cosintegral i)).
Proof.
  enough (H : forall n, is_RInt (fun f => cos f ^ n) 0 (2 * PI) (2 * PI * Q2R (cosintegral n)) /\
                        is_RInt (fun f => cos f ^ S n) 0 (2 * PI) (2 * PI * Q2R (cosintegral (S n)))) by exact (proj1 (H i)).
  induction n as [|n [IH1 IH2]].
  - split.
    + apply (is_RInt_ext (fun _ => 1)); [intros; reflexivity|].
      evar_last; [apply (is_RInt_const (V := R_NormedModule))|]. unfold scal; simpl; unfold mult; simpl. unfold Q2R; simpl. field.
    + apply (is_RInt_ext cos); [intros; simpl; ring|].
      evar_last; [apply (is_RInt_derive sin cos)|].
      * intros x _. auto_derive; [exact I|ring].
      * intros x _. apply cos_cont.
      * unfold minus, plus, opp; simpl. rewrite sin_2PI, sin_0. unfold Q2R; simpl. ring.
  - split; [exact IH2|].
    assert (D : is_RInt (fun f => (INR n + 2) * cos f ^ S (S n) - (INR n + 1) * cos f ^ n) 0 (2 * PI) 0).
    { evar_last; [apply (is_RInt_derive (fun f => cos f ^ S n * sin f) (fun f => (INR n + 2) * cos f ^ S (S n) - (INR n + 1) * cos f ^ n))|].
      - intros x _. auto_derive; [exact I|]. change (match n with 0%nat => 1 | S _ => INR n + 1 end) with (INR (S n)). rewrite S_INR. simpl pow.
        assert (T : sin x * sin x = 1 - cos x * cos x) by (pose proof (sin2_cos2 x) as T; unfold Rsqr in T; lra).
        ring_simplify. replace (sin x ^ 2) with (1 - cos x * cos x) by (simpl; lra). ring.
      - intros x _. apply edc. auto_derive. exact I.
      - unfold minus, plus, opp; simpl. rewrite sin_2PI, sin_0. ring. }
    assert (I2 := is_RInt_scal _ _ _ (/ (INR n + 2)) _ (is_RInt_plus _ _ _ _ _ _ D (is_RInt_scal _ _ _ (INR n + 1) _ IH1))).
    assert (P : INR n + 2 <> 0) by (pose proof (pos_INR n); lra).
    eapply is_RInt_ext; [|evar_last; [exact I2|]].
    + intros x _. unfold plus, scal; simpl; unfold mult; simpl. field. exact P.
    + unfold plus, scal; simpl; unfold mult; simpl. pose proof (cosint_step n) as E.
      replace (Q2R (cosintegral (S (S n)))) with ((INR n + 1) * Q2R (cosintegral n) / (INR n + 2)) by (rewrite <- E; field; exact P).
      field. exact P.
Qed.

(** an odd power of the sine makes the integral vanish *)
Lemma is_sinodd k j : is_RInt (fun f => sin f ^ S (2 * k) * cos f ^ j) 0 (2 * PI) 0.
Proof.
  set (g := fun x : R => - ((1 - x * x) ^ k * x ^ j)).
  assert (Cg : forall x, continuous g x) by (intros x; apply edc; unfold g; auto_derive; exact I).
  assert (H : is_RInt (fun f => scal (- sin f) (g (cos f))) 0 (2 * PI) (RInt g (cos 0) (cos (2 * PI)))).
  { apply (is_RInt_comp g cos (fun f => - sin f) 0 (2 * PI)).
    - intros x _. apply Cg.
    - intros x _. split; [auto_derive; [exact I|ring]|]. apply edc. auto_derive. exact I. }
  rewrite cos_0, cos_2PI in H. rewrite RInt_point in H.
  eapply is_RInt_ext; [|exact H]. intros x _. change (@eq R (- sin x * g (cos x)) (sin x ^ S (2 * k) * cos x ^ j)). unfold g.
  assert (T : sin x * sin x = 1 - cos x * cos x) by (pose proof (sin2_cos2 x) as T; unfold Rsqr in T; lra).
  rewrite <- T. change (sin x ^ S (2 * k)) with (sin x * sin x ^ (2 * k)). rewrite pow_mult. replace (sin x ^ 2) with (sin x * sin x) by ring.
  match goal with |- @eq _ ?a ?b => change (@eq R a b) end. ring.
Qed.
