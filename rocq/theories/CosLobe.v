(** The Legendre coefficients of the cosine lobe (surface.py:121-141). *)
From Verif Require Import Scatter ExprFacts.
From Coquelicot Require Import Coquelicot.
From Verif Require Import ExpInt LegFacts.
From Coq Require Import Lia.
Open Scope R_scope.

Definition gval (m : Z) : R := match gamma_half m with Some e => / evalR (fun _ => 0) e | None => 0 end.
Lemma qfact_R j : Q2R (qfact j) = INR (fact j).
Proof.
  induction j as [|j IH]; [apply Q2R_1'|]. cbn [qfact]. rewrite Q2R_red, Q2R_mult, IH, Q2R_Z, <- INR_IZR_INZ. rewrite fact_simpl, mult_INR. reflexivity.
Qed.
Lemma half_R : Q2R (1 # 2) = / 2. Proof. unfold Q2R. simpl. lra. Qed.
Lemma gop_S j : Q2R (gamma_odd_pos (S j)) = (INR j + / 2) * Q2R (gamma_odd_pos j).
Proof. cbn [gamma_odd_pos]. rewrite Q2R_red, Q2R_mult, Q2R_plus, Q2R_Z, <- INR_IZR_INZ, half_R. reflexivity. Qed.
Lemma gon_S j : Q2R (gamma_odd_neg (S j)) = Q2R (gamma_odd_neg j) / (- INR j - / 2).
Proof.
  cbn [gamma_odd_neg]. rewrite Q2R_red, Q2R_div'.
  - rewrite Q2R_minus, Q2R_opp, Q2R_Z, <- INR_IZR_INZ, half_R. reflexivity.
  - rewrite Q2R_minus, Q2R_opp, Q2R_Z, <- INR_IZR_INZ, half_R. pose proof (pos_INR j). lra.
Qed.
Lemma gop_pos j : 0 < Q2R (gamma_odd_pos j).
Proof. induction j as [|j IH]; [cbn; rewrite Q2R_1'; lra|]. rewrite gop_S. apply Rmult_lt_0_compat; [pose proof (pos_INR j); lra|assumption]. Qed.
Lemma gon_ne j : Q2R (gamma_odd_neg j) <> 0.
Proof.
  induction j as [|j IH]; [cbn; rewrite Q2R_1'; lra|]. rewrite gon_S. apply Rmult_integral_contrapositive_currified; [assumption|].
  apply Rinv_neq_0_compat. pose proof (pos_INR j). lra.
Qed.
Lemma spi : 0 < sqrt PI. Proof. apply sqrt_lt_R0, PI_RGT_0. Qed.
Lemma gval_even p : gval (2 * Z.of_nat p + 2) = / INR (fact p).
Proof.
  unfold gval, gamma_half. replace (Z.even (2 * Z.of_nat p + 2)) with true by (symmetry; apply Z.even_spec; exists (Z.of_nat p + 1)%Z; lia).
  destruct (Z.leb_spec (2 * Z.of_nat p + 2) 0); [lia|]. replace ((2 * Z.of_nat p + 2) / 2 - 1)%Z with (Z.of_nat p).
  - rewrite Nat2Z.id. cbn [evalR]. now rewrite qfact_R.
  - replace (2 * Z.of_nat p + 2)%Z with ((Z.of_nat p + 1) * 2)%Z by lia. rewrite Z.div_mul by lia. lia.
Qed.
Lemma gval_pole p : gval (- 2 * Z.of_nat p) = 0.
Proof.
  unfold gval, gamma_half. replace (Z.even (- 2 * Z.of_nat p)) with true by (symmetry; apply Z.even_spec; exists (- Z.of_nat p)%Z; lia).
  destruct (Z.leb_spec (- 2 * Z.of_nat p) 0); [reflexivity|lia].
Qed.
Lemma odd_even m : Z.even (2 * m + 1) = false. Proof. rewrite <- Z.negb_odd. apply negb_false_iff. apply Z.odd_spec. now exists m. Qed.
Lemma gval_odd j : gval (2 * Z.of_nat j + 1) = / (Q2R (gamma_odd_pos j) * sqrt PI).
Proof.
  unfold gval, gamma_half. rewrite odd_even. destruct (Z.ltb_spec 0 (2 * Z.of_nat j + 1)); [|lia].
  replace ((2 * Z.of_nat j + 1 - 1) / 2)%Z with (Z.of_nat j); [rewrite Nat2Z.id; reflexivity|].
  replace (2 * Z.of_nat j + 1 - 1)%Z with (Z.of_nat j * 2)%Z by lia. now rewrite Z.div_mul.
Qed.
Lemma gval_neg j : gval (1 - 2 * Z.of_nat j) = / (Q2R (gamma_odd_neg j) * sqrt PI).
Proof.
  destruct j as [|j]; [apply (gval_odd 0)|].
  unfold gval, gamma_half. replace (Z.even (1 - 2 * Z.of_nat (S j))) with false by (replace (1 - 2 * Z.of_nat (S j))%Z with (2 * (- Z.of_nat (S j)) + 1)%Z by lia; symmetry; apply odd_even).
  destruct (Z.ltb_spec 0 (1 - 2 * Z.of_nat (S j))); [lia|].
  replace ((1 - (1 - 2 * Z.of_nat (S j))) / 2)%Z with (Z.of_nat (S j)); [rewrite Nat2Z.id; reflexivity|].
  replace (1 - (1 - 2 * Z.of_nat (S j)))%Z with (Z.of_nat (S j) * 2)%Z by lia. now rewrite Z.div_mul.
Qed.
(** 1/Gamma(z) = z / Gamma(z + 1), also at the poles *)
Lemma gval_rec m : gval m = IZR m / 2 * gval (m + 2).
Proof.
  destruct (Z.Even_or_Odd m) as [[k Hk]|[k Hk]]; subst m.
  - destruct (Z_lt_le_dec 0 k) as [P|P].
    + set (p := Z.to_nat (k - 1)). assert (E : k = (Z.of_nat p + 1)%Z) by (unfold p; lia).
      replace (2 * k)%Z with (2 * Z.of_nat p + 2)%Z by lia.
      rewrite gval_even. replace (2 * Z.of_nat p + 2 + 2)%Z with (2 * Z.of_nat (S p) + 2)%Z by lia. rewrite gval_even.
      rewrite fact_simpl, mult_INR. replace (IZR (2 * Z.of_nat p + 2) / 2) with (INR (S p)) by (rewrite plus_IZR, mult_IZR, S_INR, INR_IZR_INZ; field).
      field. split; [apply INR_fact_neq_0|apply not_0_INR; discriminate].
    + destruct (Z.eq_dec k 0) as [->|N].
      * change (2 * 0)%Z with (-2 * Z.of_nat 0)%Z. rewrite gval_pole. change (-2 * Z.of_nat 0)%Z with 0%Z. unfold Rdiv. ring.
      * replace (2 * k)%Z with (-2 * Z.of_nat (Z.to_nat (- k)))%Z by lia. rewrite gval_pole.
        replace (-2 * Z.of_nat (Z.to_nat (- k)) + 2)%Z with (-2 * Z.of_nat (Z.to_nat (- k - 1)))%Z by lia. rewrite gval_pole. ring.
  - pose proof spi. destruct (Z_lt_le_dec k 0) as [P|P].
    + set (j := Z.to_nat (- k - 1)). assert (E : k = (- Z.of_nat (S j))%Z) by (unfold j; lia).
      replace (2 * k + 1)%Z with (1 - 2 * Z.of_nat (S j))%Z by lia. rewrite gval_neg.
      replace (1 - 2 * Z.of_nat (S j) + 2)%Z with (1 - 2 * Z.of_nat j)%Z by lia. rewrite gval_neg, gon_S.
      pose proof (gon_ne j). pose proof (pos_INR j).
      replace (IZR (1 - 2 * Z.of_nat (S j)) / 2) with (- INR j - / 2).
      * field. repeat split; try lra.
      * rewrite minus_IZR, mult_IZR, <- INR_IZR_INZ, S_INR. field.
    + set (j := Z.to_nat k). assert (E : k = Z.of_nat j) by (unfold j; lia). rewrite E.
      rewrite gval_odd. replace (2 * Z.of_nat j + 1 + 2)%Z with (2 * Z.of_nat (S j) + 1)%Z by lia. rewrite gval_odd, gop_S.
      pose proof (gop_pos j). pose proof (pos_INR j).
      replace (IZR (2 * Z.of_nat j + 1) / 2) with (INR j + / 2).
      * field. repeat split; try lra.
      * rewrite plus_IZR, mult_IZR, <- INR_IZR_INZ. field.
Qed.

(** the closed form of the code *)
Definition cl (i n : nat) : R :=
  sqrt PI * INR (fact i) / 2 ^ (S i) * gval (2 - Z.of_nat n + Z.of_nat i) * gval (3 + Z.of_nat n + Z.of_nat i).
Lemma cl_0 i : cl i 0 = / (INR i + 1).
Proof.
  pose proof spi as SP.
  induction i as [|i IH].
  - unfold cl. change (2 - Z.of_nat 0 + Z.of_nat 0)%Z with (2 * Z.of_nat 0 + 2)%Z. change (3 + Z.of_nat 0 + Z.of_nat 0)%Z with (2 * Z.of_nat 1 + 1)%Z.
    rewrite gval_even, gval_odd, gop_S. change (Q2R (gamma_odd_pos 0)) with (Q2R 1). rewrite Q2R_1'. simpl. field. lra.
  - unfold cl in *. replace (2 - Z.of_nat 0 + Z.of_nat (S i))%Z with (3 + Z.of_nat 0 + Z.of_nat i)%Z by lia.
    replace (3 + Z.of_nat 0 + Z.of_nat (S i))%Z with ((2 - Z.of_nat 0 + Z.of_nat i) + 2)%Z by lia.
    rewrite (gval_rec (2 - Z.of_nat 0 + Z.of_nat i)) in IH. rewrite fact_simpl, mult_INR.
    replace (IZR (2 - Z.of_nat 0 + Z.of_nat i)) with (INR i + 2) in IH by (rewrite plus_IZR, minus_IZR, <- !INR_IZR_INZ; simpl; ring).
    set (A := gval (2 - Z.of_nat 0 + Z.of_nat i + 2)) in *. set (B := gval (3 + Z.of_nat 0 + Z.of_nat i)) in *.
    pose proof (pos_INR i). assert (P2 : 0 < 2 ^ S i) by (apply pow_lt; lra).
    rewrite !S_INR. change (2 ^ S (S i)) with (2 * 2 ^ S i).
    replace (sqrt PI * ((INR i + 1) * INR (fact i)) / (2 * 2 ^ S i) * B * A)
      with ((INR i + 1) / (INR i + 2) * (sqrt PI * INR (fact i) / 2 ^ S i * ((INR i + 2) / 2 * A) * B)) by (field; lra).
    rewrite IH. field. lra.
Qed.
Lemma cl_1 i : cl i 1 = / (INR i + 2).
Proof.
  pose proof (cl_0 i) as H. unfold cl in *. pose proof (pos_INR i).
  rewrite (gval_rec (2 - Z.of_nat 0 + Z.of_nat i)) in H.
  rewrite (gval_rec (2 - Z.of_nat 1 + Z.of_nat i)).
  replace (2 - Z.of_nat 1 + Z.of_nat i + 2)%Z with (3 + Z.of_nat 0 + Z.of_nat i)%Z by lia.
  replace (3 + Z.of_nat 1 + Z.of_nat i)%Z with (2 - Z.of_nat 0 + Z.of_nat i + 2)%Z by lia.
  replace (IZR (2 - Z.of_nat 0 + Z.of_nat i)) with (INR i + 2) in H by (rewrite plus_IZR, minus_IZR, <- !INR_IZR_INZ; simpl; ring).
  replace (IZR (2 - Z.of_nat 1 + Z.of_nat i)) with (INR i + 1) by (rewrite plus_IZR, minus_IZR, <- !INR_IZR_INZ; simpl; ring).
  set (A := gval (2 - Z.of_nat 0 + Z.of_nat i + 2)) in *. set (B := gval (3 + Z.of_nat 0 + Z.of_nat i)) in *.
  assert (P2 : 0 < 2 ^ S i) by (apply pow_lt; lra).
  replace (sqrt PI * INR (fact i) / 2 ^ S i * ((INR i + 1) / 2 * B) * A)
    with ((INR i + 1) / (INR i + 2) * (sqrt PI * INR (fact i) / 2 ^ S i * ((INR i + 2) / 2 * A) * B)) by (field; lra).
  rewrite H. field. lra.
Qed.
Lemma cl_rec i n : (INR n + 2) * cl i (S (S n)) = (2 * INR n + 3) * cl (S i) (S n) - (INR n + 1) * cl i n.
Proof.
  unfold cl.
  rewrite (gval_rec (2 - Z.of_nat (S (S n)) + Z.of_nat i)), (gval_rec (3 + Z.of_nat n + Z.of_nat i)).
  replace (2 - Z.of_nat (S (S n)) + Z.of_nat i + 2)%Z with (2 - Z.of_nat n + Z.of_nat i)%Z by lia.
  replace (2 - Z.of_nat (S n) + Z.of_nat (S i))%Z with (2 - Z.of_nat n + Z.of_nat i)%Z by lia.
  replace (3 + Z.of_nat n + Z.of_nat i + 2)%Z with (3 + Z.of_nat (S (S n)) + Z.of_nat i)%Z by lia.
  replace (3 + Z.of_nat (S n) + Z.of_nat (S i))%Z with (3 + Z.of_nat (S (S n)) + Z.of_nat i)%Z by lia.
  replace (IZR (2 - Z.of_nat (S (S n)) + Z.of_nat i)) with (INR i - INR n) by (rewrite plus_IZR, minus_IZR, <- !INR_IZR_INZ, !S_INR; ring).
  replace (IZR (3 + Z.of_nat n + Z.of_nat i)) with (3 + INR n + INR i) by (rewrite !plus_IZR, <- !INR_IZR_INZ; simpl; ring).
  rewrite fact_simpl, mult_INR, S_INR. change (2 ^ S (S i)) with (2 * 2 ^ S i).
  assert (P2 : 0 < 2 ^ S i) by (apply pow_lt; lra). field. lra.
Qed.
Theorem cl_moment n : forall i, cl i n = moment i n.
Proof.
  assert (H : forall i, cl i n = moment i n /\ cl i (S n) = moment i (S n)).
  { induction n as [|n IH]; intros i.
    - rewrite cl_0, moment_0, cl_1, moment_1. split; reflexivity.
    - split; [apply IH|]. apply Rmult_eq_reg_l with (INR n + 2); [|apply nz2]. rewrite cl_rec, moment_rec.
      rewrite (proj1 (IH i)), (proj2 (IH (S i))). reflexivity. }
  intros i. apply H.
Qed.

(** the coefficient of the code *)
Lemma gamma_half_ne f m e : gamma_half m = Some e -> evalR f e <> 0 /\ gval m = / evalR f e /\ wd f e.
Proof.
  intros H. unfold gval. rewrite H. unfold gamma_half in H. pose proof spi.
  destruct (Z.even m).
  - destruct (m <=? 0)%Z; inversion H; subst. cbn [evalR]. rewrite qfact_R. split; [apply INR_fact_neq_0|]. split; [reflexivity|exact I].
  - destruct (0 <? m)%Z; inversion H; subst; cbn [evalR].
    + split; [apply Rmult_integral_contrapositive_currified; [pose proof (gop_pos (Z.to_nat ((m - 1) / 2))); lra|lra]|]. split; [reflexivity|].
      cbn [wd evalR]. pose proof PI_RGT_0. repeat split; lra.
    + split; [apply Rmult_integral_contrapositive_currified; [apply gon_ne|lra]|]. split; [reflexivity|].
      cbn [wd evalR]. pose proof PI_RGT_0. repeat split; lra.
Qed.
Lemma coslobe_coef_val f k i nc a e : legendre_coefficient k (SCos i nc a) = Ok e ->
  evalR f e = 1 / PI * ((2 * INR k + 1) / 2 * moment i k) /\ wd f e.
Proof.
  intros H. rewrite <- cl_moment. cbn [legendre_coefficient] in H.
  assert (PP : PI <> 0) by (pose proof PI_RGT_0; lra).
  assert (P2 : 0 < 2 ^ i) by (apply pow_lt; lra).
  assert (N : Q2R (Qred (1 / (4 * qpow 2 i) * (1 + 2 * qn k) * qfact i)) = / (4 * 2 ^ i) * (1 + 2 * INR k) * INR (fact i)).
  { rewrite Q2R_red, !Q2R_mult, qfact_R, Q2R_plus, Q2R_mult. unfold qn. rewrite Q2R_Z, <- INR_IZR_INZ.
    assert (D : Q2R (4 * qpow 2 i) = 4 * 2 ^ i) by (rewrite Q2R_mult, Q2R_qpow, !Q2R_lit; f_equal; [lra|f_equal; lra]).
    rewrite Q2R_div', D by (rewrite D; lra). rewrite Q2R_1', Q2R_lit. field. lra. }
  remember (Qred (1 / (4 * qpow 2 i) * (1 + 2 * qn k) * qfact i)) as Qn eqn:EQ. clear EQ.
  destruct (gamma_half (2 - Z.of_nat k + Z.of_nat i)) as [g1|] eqn:G1; [destruct (gamma_half (3 + Z.of_nat k + Z.of_nat i)) as [g2|] eqn:G2|].
  - destruct (gamma_half_ne f _ _ G1) as (N1 & V1 & W1). destruct (gamma_half_ne f _ _ G2) as (N2 & V2 & W2).
    inversion H; subst e. cbn [evalR wd]. rewrite N. unfold cl. rewrite V1, V2, Q2R_1'. split.
    + change (2 ^ S i) with (2 * 2 ^ i). field. repeat split; try assumption; lra.
    + pose proof PI_RGT_0. repeat split; auto; try lra.
  - inversion H; subst e. cbn [evalR wd]. rewrite Q2R_0'. unfold cl. unfold gval at 2. rewrite G2. split; [ring|exact I].
  - assert (e = ENum 0) by (destruct (gamma_half (3 + Z.of_nat k + Z.of_nat i)); congruence). subst e. cbn [evalR wd]. rewrite Q2R_0'. unfold cl. unfold gval at 1. rewrite G1. split; [ring|exact I].
Qed.
