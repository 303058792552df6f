(** Overflow in the interaction contribution: C99. *)
From Flocq Require Import Core Relative.
From Coquelicot Require Import Coquelicot.
From Coq Require Import ZArith Reals Lra Lia List.
From Verif Require Import Spec Float.
From Verif Require Import Elem FintEl ExpInt FintVal.
From Verif Require Import Properties35.
Open Scope R_scope.

(** ** exp and Ei at large arguments *)
Lemma sq_step h q q' : q <= exp h -> 0 <= q -> q' <= q * q -> q' <= exp (2 * h).
Proof. intros H P Q. replace (2 * h) with (h + h) by ring. rewrite exp_plus. eapply Rle_trans; [exact Q|]. apply Rmult_le_compat; assumption. Qed.
Lemma exp_1_ge : 27179 / 10000 <= exp 1.
Proof.
  assert (H0 : 4097 / 4096 <= exp (/ 4096)) by (pose proof (exp_ineq1_le (/ 4096)); lra).
  pose proof (sq_step _ _ (10004883408 / 10000000000) H0 ltac:(lra) ltac:(lra)) as H1.
  pose proof (sq_step _ _ (10009769200 / 10000000000) H1 ltac:(lra) ltac:(lra)) as H2.
  pose proof (sq_step _ _ (10019547943 / 10000000000) H2 ltac:(lra) ltac:(lra)) as H3.
  pose proof (sq_step _ _ (10039134097 / 10000000000) H3 ltac:(lra) ltac:(lra)) as H4.
  pose proof (sq_step _ _ (10078421341 / 10000000000) H4 ltac:(lra) ltac:(lra)) as H5.
  pose proof (sq_step _ _ (10157457672 / 10000000000) H5 ltac:(lra) ltac:(lra)) as H6.
  pose proof (sq_step _ _ (10317394635 / 10000000000) H6 ltac:(lra) ltac:(lra)) as H7.
  pose proof (sq_step _ _ (10644863205 / 10000000000) H7 ltac:(lra) ltac:(lra)) as H8.
  pose proof (sq_step _ _ (11331311265 / 10000000000) H8 ltac:(lra) ltac:(lra)) as H9.
  pose proof (sq_step _ _ (12839861498 / 10000000000) H9 ltac:(lra) ltac:(lra)) as H10.
  pose proof (sq_step _ _ (16486204328 / 10000000000) H10 ltac:(lra) ltac:(lra)) as H11.
  pose proof (sq_step _ _ (27179493314 / 10000000000) H11 ltac:(lra) ltac:(lra)) as H12.
  replace (2 * (2 * (2 * (2 * (2 * (2 * (2 * (2 * (2 * (2 * (2 * (2 * / 4096)))))))))))) with 1 in H12 by field. lra.
Qed.
Lemma exp_big (n k : nat) : (2 ^ Z.of_nat k * 10000 ^ Z.of_nat n <= 27179 ^ Z.of_nat n)%Z -> two (Z.of_nat k) <= exp (INR n).
Proof.
  intros H. assert (E : (27179 / 10000) ^ n <= exp (INR n)).
  { clear. induction n as [|n IH]; [simpl; rewrite exp_0; lra|]. rewrite S_INR, exp_plus. simpl. pose proof exp_1_ge. rewrite (Rmult_comm (exp (INR n))).
    apply Rmult_le_compat; try lra. apply pow_le. lra. }
  eapply Rle_trans; [|exact E]. unfold Rdiv. rewrite Rpow_mult_distr, pow_inv. apply Rmult_le_reg_r with (10000 ^ n); [apply pow_lt; lra|].
  rewrite Rmult_assoc, Rinv_l, Rmult_1_r by (apply pow_nonzero; lra). rewrite !pow_IZR. rewrite <- IZR_Zpower by lia. rewrite <- mult_IZR. apply IZR_le. exact H.
Qed.
Lemma exp_746 : two 1076 <= exp 746.
Proof. replace 746 with (INR 746) by (rewrite INR_IZR_INZ; reflexivity). apply (exp_big 746 1076). apply Z.leb_le. vm_compute. reflexivity. Qed.
Lemma exp_719 : two 1036 <= exp 719.
Proof. replace 719 with (INR 719) by (rewrite INR_IZR_INZ; reflexivity). apply (exp_big 719 1036). apply Z.leb_le. vm_compute. reflexivity. Qed.

Lemma phi1_pos x : 0 <= phi1 x.
Proof.
  unfold phi1. destruct (Req_EM_T x 0); [lra|]. destruct (Rlt_dec 0 x) as [P|P].
  - apply Rmult_le_pos; [|left; now apply Rinv_0_lt_compat]. pose proof (exp_ineq1_le x). lra.
  - assert (N : x < 0) by lra. replace ((exp x - 1) / x) with ((1 - exp x) / (- x)) by (field; lra). apply Rmult_le_pos; [|left; apply Rinv_0_lt_compat; lra].
    assert (exp x <= exp 0) by (apply exp_le; lra). rewrite exp_0 in *. lra.
Qed.
Lemma Ein_diff a b : a <= b -> exists c, a <= c <= b /\ Ein b - Ein a = phi1 c * (b - a).
Proof.
  intros H. destruct (MVT_gen Ein a b phi1) as (c & Hc & E).
  - intros x _. apply Ein_derive.
  - intros x _. apply continuity_pt_filterlim. apply (ex_derive_continuous Ein). eexists. apply Ein_derive.
  - rewrite Rmin_left, Rmax_right in Hc by assumption. now exists c.
Qed.
Lemma Ein_mono a b : a <= b -> Ein a <= Ein b.
Proof. intros H. destruct (Ein_diff a b H) as (c & _ & E). pose proof (phi1_pos c). assert (0 <= phi1 c * (b - a)) by (apply Rmult_le_pos; lra). lra. Qed.
Lemma h1_le x : 0 <= h1 x <= 1.
Proof.
  unfold h1. destruct (Rle_dec x 0); [lra|]. assert (P : 0 < / x) by (apply Rinv_0_lt_compat; lra). set (y := / x) in *. unfold Rdiv. fold y.
  pose proof (exp_pos (- y)). split; [apply Rmult_le_pos; lra|]. pose proof (exp_ineq1_le y). assert (E : exp (- y) * exp y = 1) by (rewrite <- exp_plus; replace (- y + y) with 0 by ring; apply exp_0). nra.
Qed.
Lemma H1_le y : 0 <= y -> 0 <= H1 y <= y.
Proof.
  intros H. destruct (MVT_gen H1 0 y h1) as (c & Hc & E).
  - intros x _. apply H1_derive.
  - intros x _. apply continuity_pt_filterlim. apply (ex_derive_continuous H1). eexists. apply H1_derive.
  - rewrite H1_0 in E. pose proof (h1_le c). nra.
Qed.
Lemma Ei_split z : 0 < z -> Ei z = - H1 (/ z) - Ein (- z) + Ein z.
Proof. intros H. rewrite Ei_val, Rabs_pos_eq by lra. pose proof (E1_Ein z H). lra. Qed.
(** Ei exceeds the largest double *)
Lemma Ei_big z : 720 <= z -> two 1024 <= Ei z.
Proof.
  intros H. rewrite Ei_split by lra. assert (I : / z <= 1) by (rewrite <- Rinv_1; apply Rinv_le_contravar; lra). assert (I0 : 0 < / z) by (apply Rinv_0_lt_compat; lra).
  pose proof (H1_le (/ z) ltac:(lra)). pose proof (Ein_mono (- z) 0 ltac:(lra)). pose proof (Ein_mono 0 719 ltac:(lra)). rewrite Ein_0 in *. pose proof (Ein_mono 720 z H).
  destruct (Ein_diff 719 720 ltac:(lra)) as (c & Hc & E).
  assert (P : (two 1036 - 1) / 720 <= phi1 c).
  { unfold phi1. destruct (Req_EM_T c 0); [lra|]. pose proof exp_719. assert (exp 719 <= exp c) by (apply exp_le; lra). assert (0 < / c) by (apply Rinv_0_lt_compat; lra). assert (two 0 <= two 1036) by (apply bpow_le; lia). rewrite two_0 in *.
    apply Rmult_le_compat; try lra. apply Rinv_le_contravar; lra. }
  assert (T : two 1036 = 4096 * two 1024) by (change 1036%Z with (12 + 1024)%Z; rewrite bpow_plus; reflexivity). assert (two 0 <= two 1024) by (apply bpow_le; lia). rewrite two_0 in *. lra.
Qed.
Lemma phi1_le c : (c <= 0 -> phi1 c <= 1) /\ (0 <= c -> phi1 c <= exp c).
Proof.
  unfold phi1. destruct (Req_EM_T c 0) as [->|N]; [rewrite exp_0; lra|]. pose proof (exp_pos c). split; intros H0.
  - replace ((exp c - 1) / c) with ((1 - exp c) / (- c)) by (field; lra). apply Rle_div_l; [lra|]. pose proof (exp_ineq1_le c). lra.
  - apply Rle_div_l; [lra|]. pose proof (exp_ineq1_le (- c)). assert (E : exp (- c) * exp c = 1) by (rewrite <- exp_plus; replace (- c + c) with 0 by ring; apply exp_0). nra.
Qed.
Lemma Ei_abs z : 0 < z -> Rabs (Ei z) <= / z + z + z * exp z.
Proof.
  intros H. rewrite Ei_split by lra. assert (I0 : 0 < / z) by (apply Rinv_0_lt_compat; lra). pose proof (H1_le (/ z) ltac:(lra)).
  destruct (Ein_diff (- z) 0 ltac:(lra)) as (c & Hc & E). destruct (Ein_diff 0 z ltac:(lra)) as (c' & Hc' & E'). rewrite Ein_0 in *.
  pose proof (phi1_pos c). pose proof (phi1_pos c'). destruct (phi1_le c) as [K _]. destruct (phi1_le c') as [_ K']. specialize (K ltac:(lra)). specialize (K' ltac:(lra)).
  assert (exp c' <= exp z) by (apply exp_le; lra).
  assert (0 <= phi1 c * (0 - - z) <= 1 * z) by (split; [apply Rmult_le_pos; lra|]; apply Rmult_le_compat; lra).
  assert (0 <= phi1 c' * (z - 0) <= exp z * z) by (split; [apply Rmult_le_pos; lra|]; apply Rmult_le_compat; lra). apply Rabs_le. lra.
Qed.
Lemma exp_1_le : exp 1 <= 272 / 100.
Proof.
  assert (H0 : 4095 / 4096 <= exp (- / 4096)) by (pose proof (exp_ineq1_le (- / 4096)); lra).
  pose proof (sq_step _ _ (9995117783 / 10000000000) H0 ltac:(lra) ltac:(lra)) as H1.
  pose proof (sq_step _ _ (9990237949 / 10000000000) H1 ltac:(lra) ltac:(lra)) as H2.
  pose proof (sq_step _ _ (9980485426 / 10000000000) H2 ltac:(lra) ltac:(lra)) as H3.
  pose proof (sq_step _ _ (9961008933 / 10000000000) H3 ltac:(lra) ltac:(lra)) as H4.
  pose proof (sq_step _ _ (9922169892 / 10000000000) H4 ltac:(lra) ltac:(lra)) as H5.
  pose proof (sq_step _ _ (9844945535 / 10000000000) H5 ltac:(lra) ltac:(lra)) as H6.
  pose proof (sq_step _ _ (9692295258 / 10000000000) H6 ltac:(lra) ltac:(lra)) as H7.
  pose proof (sq_step _ _ (9394058735 / 10000000000) H7 ltac:(lra) ltac:(lra)) as H8.
  pose proof (sq_step _ _ (8824833950 / 10000000000) H8 ltac:(lra) ltac:(lra)) as H9.
  pose proof (sq_step _ _ (7787769420 / 10000000000) H9 ltac:(lra) ltac:(lra)) as H10.
  pose proof (sq_step _ _ (6064935252 / 10000000000) H10 ltac:(lra) ltac:(lra)) as H11.
  pose proof (sq_step _ _ (3678343955 / 10000000000) H11 ltac:(lra) ltac:(lra)) as H12.
  replace (2 * (2 * (2 * (2 * (2 * (2 * (2 * (2 * (2 * (2 * (2 * (2 * - / 4096)))))))))))) with (- (1)) in H12 by field.
  pose proof (exp_pos 1). assert (E : exp (- (1)) * exp 1 = 1) by (rewrite <- exp_plus; replace (- (1) + 1) with 0 by ring; apply exp_0). nra.
Qed.
Lemma exp_701 : exp 701 <= two 1012.
Proof.
  replace 701 with (INR 701) by (rewrite INR_IZR_INZ; reflexivity).
  assert (E : forall n, exp (INR n) <= (272 / 100) ^ n).
  { induction n as [|n IH]; [simpl; rewrite exp_0; lra|]. rewrite S_INR, exp_plus. simpl. pose proof exp_1_le. pose proof (exp_pos 1). pose proof (exp_pos (INR n)). rewrite (Rmult_comm (exp (INR n))).
    apply Rmult_le_compat; lra. }
  eapply Rle_trans; [apply E|]. unfold Rdiv. rewrite Rpow_mult_distr, pow_inv. apply Rmult_le_reg_r with (100 ^ 701); [apply pow_lt; lra|].
  rewrite Rmult_assoc, Rinv_l, Rmult_1_r by (apply pow_nonzero; lra). rewrite !pow_IZR. change (two 1012) with (IZR (Z.pow_pos 2 1012)). rewrite <- mult_IZR. apply IZR_le. apply Z.leb_le. vm_compute. reflexivity.
Qed.

(** ** Vocabulary *)
(** np.exp, np.log, scipy's expi and expn and integer powers return the double closest to the exact value *)
Definition rounded (L : libm) : Prop :=
  (forall u, l_exp L (Fin u) = ieee (xexp (Fin u))) /\ (forall u, l_log L (Fin u) = ieee (xlog (Fin u))) /\ (forall u, l_expi L (Fin u) = ieee (xexpi (Fin u))) /\
  (forall m u, l_expn L m (Fin u) = ieee (xexpn m (Fin u))) /\ (forall u k, l_pow L (Fin u) k = ieee (xpow (Fin u) k)).
(** a direction 60 degrees or more off nadir and a layer whose optical depth along it is at least 1500 *)
Definition thick (tau mu : R) : Prop := two (-60) <= mu <= 1 / 2 /\ 1500 * mu <= tau <= two 60.

Lemma fl_tiny y : 0 <= y <= two (-1076) -> fl y = 0.
Proof.
  intros H. assert (P : 0 <= fl y) by (rewrite <- fl_0; apply fl_le; lra). destruct (Rle_lt_or_eq_dec _ _ P) as [LT|E]; [exfalso|now symmetry].
  assert (Fy : generic_format radix2 b64 (fl y)) by (apply generic_format_round; [apply FLT_exp_valid, prec53|apply valid_rnd_N]).
  pose proof (generic_format_ge_bpow radix2 b64 (-1074) ltac:(intros e; unfold FLT_exp; lia) _ LT Fy) as B.
  destruct (round_N_pt radix2 b64 (fun z => negb (Z.even z)) y) as [_ RN]. specialize (RN 0 (generic_format_0 _ _)). fold (fl y) in RN.
  rewrite Rminus_0_l, Rabs_Ropp, (Rabs_pos_eq y) in RN by lra. apply Rabs_le_between in RN.
  assert (two (-1074) = 4 * two (-1076)) by (change (-1074)%Z with (2 + -1076)%Z; rewrite bpow_plus; reflexivity). pose proof (two_pos (-1076)). lra.
Qed.
Lemma near_low d v z : near d v z -> 0 <= v -> (1 - d) * v <= z.
Proof. intros (k & [K _] & ->) H. pose proof (exp_ineq1_le (- d)). rewrite Rmult_comm. apply Rmult_le_compat_l; lra. Qed.
Lemma thick_sizes tau mu : thick tau mu -> 0 < mu /\ 0 < tau /\ sized (-60) 60 tau /\ sized (-60) 0 mu /\ 1500 <= tau / mu /\ tau <= (tau / mu) / 2.
Proof.
  intros [Hm Ht]. pose proof (two_pos (-60)). assert (two (-60) <= 1500 * two (-60)) by lra. split; [lra|]. split; [lra|]. split; [right; lra|]. split; [right; rewrite two_0; lra|].
  split; [apply Rmult_le_reg_r with mu; [lra|]; unfold Rdiv; rewrite Rmult_assoc, Rinv_l by lra; lra|]. assert (tau = tau / mu * mu) by (field; lra). assert (0 <= tau / mu) by (apply Rmult_le_pos; [lra|left; apply Rinv_0_lt_compat; lra]). nra.
Qed.
Section Nan.
  Context (L : libm) (RL : rounded L) (tau mu : R) (TH : thick tau mu).
  Notation A := (binary64 L).
  Lemma quot : exists d, f_div A (Fin tau) (Fin mu) = Fin d /\ f_div A (f_neg A (Fin tau)) (Fin mu) = Fin (- d) /\ near eps (tau / mu) d /\ sized (-60) 120 d.
  Proof.
    destruct (thick_sizes _ _ TH) as (Pm & Pt & St & Sm & Q & _).
    destruct (op_div L _ _ _ _ 0 0 _ _ _ _ St Sm (near_refl _) (near_refl _) ltac:(lra) ltac:(lia) ltac:(lia) ltac:(lia)) as (d & E & S & N).
    exists d. split; [exact E|]. split; [|split; [eapply near_weak; [exact N|lra]|exact S]].
    assert (B : Rabs (tau / mu) <= two 120) by (destruct (sized_div _ _ _ _ _ _ St Sm ltac:(lra)) as [->|[B0 B]]; [rewrite Rabs_R0; apply bpow_ge_0|rewrite Rabs_pos_eq; [exact B|pose proof (two_pos (-60 - 0)); lra]]).
    cbn [f_div f_neg binary64 xopp xdiv] in *. destruct (Req_EM_T mu 0); [lra|]. replace (- tau / mu) with (- (tau / mu)) by (field; lra).
    rewrite (ieee_fin (tau / mu) 120) in E by (try lia; exact B). rewrite (ieee_fin _ 120) by (try lia; rewrite Rabs_Ropp; exact B). injection E as <-. now rewrite fl_opp.
  Qed.
  Lemma hlp1_nan : g_hlp1 A (Fin mu) (Fin tau) = NaN.
  Proof.
    destruct (thick_sizes _ _ TH) as (Pm & Pt & St & Sm & Q & H2). destruct quot as (d & E & E' & N & Sd). destruct RL as (RE & _ & RI & _). pose proof eps_small as EP.
    unfold g_hlp1. rewrite E, E'. pose proof (near_low _ _ _ N ltac:(lra)) as D.
    assert (D1 : 1498 <= d) by nra. assert (D2 : 720 * 2 <= d - tau + 720) by nra.
    assert (D3 : d <= two 120) by (destruct Sd as [B|[_ B]]; [pose proof (two_pos 120); lra|exact B]).
    assert (X : f_exp A (Fin (- d)) = Fin 0).
    { cbn [f_exp binary64]. rewrite RE. cbn [xexp]. assert (U : exp (- d) <= two (-1076)).
      { apply Rle_trans with (exp (- (746))); [apply exp_le; lra|]. rewrite exp_Ropp. change (-1076)%Z with (- (1076))%Z. rewrite bpow_opp. apply Rinv_le_contravar; [apply two_pos|apply exp_746]. }
      pose proof (exp_pos (- d)). rewrite (ieee_fin _ 0) by (first [lia|rewrite Rabs_pos_eq by lra; eapply Rle_trans; [exact U|apply bpow_le; lia]]). now rewrite fl_tiny by lra. }
    assert (Y : exists u, f_sub A (Fin d) (Fin tau) = Fin u /\ 720 <= u).
    { cbn [f_sub binary64 xsub xadd xopp]. rewrite (ieee_fin _ 120) by (try lia; rewrite Rabs_pos_eq by lra; lra). eexists. split; [reflexivity|].
      assert (Z : sized 0 120 (d + - tau)) by (right; rewrite two_0; lra). pose proof (near_low _ _ _ (fl_near 0 120 _ ltac:(lia) Z) ltac:(lra)).
      assert (730 <= d + - tau) by nra. nra. }
    destruct Y as (u & -> & U). rewrite X. cbn [f_expi binary64]. rewrite RI.
    assert (I : ieee (xexpi (Fin u)) = PInf).
    { cbn [xexpi]. destruct (Req_EM_T u 0); [lra|]. unfold ieee. destruct (Rle_dec (two 1024) (fl (Ei u))) as [K|K]; [reflexivity|]. exfalso. apply K.
      rewrite <- (fl_two 1024) at 1 by lia. apply fl_le. now apply Ei_big. }
    rewrite I. cbn [f_add f_mul binary64]. assert (M : xmul (Fin 0) PInf = NaN) by (cbn [xmul]; unfold rsign; destruct (Rlt_dec 0 0); [lra|reflexivity]). rewrite M. cbn [ieee].
    match goal with |- ieee (xadd ?a NaN) = NaN => destruct a; reflexivity end.
  Qed.
  Lemma Fint_nan fs : fs <> nil -> g_Fint A fs (Fin mu) (Fin tau) = NaN.
  Proof.
    destruct fs as [|v fs]; [congruence|intros _]. unfold g_Fint. cbn [length seq fold_right nth]. unfold g_S2. rewrite hlp1_nan. cbn [f_add f_mul binary64].
    match goal with |- context [xadd ?a NaN] => replace (xadd a NaN) with NaN by (now destruct a) end. cbn [ieee].
    match goal with |- context [xmul ?a NaN] => replace (xmul a NaN) with NaN by (now destruct a) end. cbn [ieee].
    destruct v; reflexivity.
  Qed.
End Nan.
Lemma mul_nan L a : f_mul (binary64 L) a NaN = NaN. Proof. now destruct a. Qed.
Lemma add_nan L a : f_add (binary64 L) a NaN = NaN /\ f_add (binary64 L) NaN a = NaN. Proof. now destruct a. Qed.

(** *** C99.  The interaction contribution of an absorbing layer is a number.
    Intended: for valid parameters and directions away from nadir, interaction() and the total of calc() are not NaN. *)
Theorem C99_interaction_refuted : forall L i0 om norm bsf tau mu0 muex cs1 cs2,
  rounded L -> 0 < mu0 < 1 -> 0 < muex < 1 -> 0 < tau -> thick tau mu0 \/ thick tau muex -> cs1 <> nil -> cs2 <> nil ->
  let value A := g_interaction A (Fin i0) (Fin mu0) (Fin muex) (Fin om) (Fin tau) (Fin norm) (Fin bsf)
    (g_Fint A (map Fin cs1) (Fin mu0) (Fin tau)) (g_Fint A (map Fin cs2) (Fin muex) (Fin tau)) in
  (exists v, value exact = Fin v) /\ value (binary64 L) = NaN.
Proof.
  intros L i0 om norm bsf tau mu0 muex cs1 cs2 RL H0 H1 Ht TH N1 N2 value.
  split.
  - destruct exact_kernels as (_ & _ & _ & EF & EI). unfold value. rewrite EI, (EF (map Fin cs1)), (EF (map Fin cs2)).
    destruct (x_Fint_val mu0 tau H0 Ht cs1) as (F1 & -> & _). destruct (x_Fint_val muex tau H1 Ht cs2) as (F2 & -> & _).
    unfold x_interaction. rewrite !neg_div by lra. cbn [xexp xmul xadd xsub xopp]. eexists. reflexivity.
  - unfold value, g_interaction.
    assert (M : forall cs, cs <> nil -> map Fin cs <> nil) by (intros [|? ?]; [congruence|discriminate]).
    destruct TH as [TH|TH].
    + rewrite (Fint_nan L RL _ _ TH _ (M _ N1)), mul_nan, (proj2 (add_nan _ _)). now rewrite !mul_nan.
    + rewrite (Fint_nan L RL _ _ TH _ (M _ N2)), mul_nan, (proj1 (add_nan _ _)). now rewrite !mul_nan.
Qed.
Print Assumptions C99_interaction_refuted.

(** The part that holds: with a path of optical depth at most 700, at least 2^-40 off nadir and at most 89.9 degrees, the interaction contribution is a number. *)
Section Finite.
  Context (L : libm).
  Notation A := (binary64 L).
  Lemma fin_op y h : (0 <= h <= 1023)%Z -> Rabs y <= two h -> exists z, ieee (Fin y) = Fin z /\ Rabs z <= two h.
  Proof.
    intros H B. exists (fl y). split; [apply (ieee_fin _ h); [lia|exact B]|]. apply Rabs_le_between in B. apply Rabs_le. rewrite <- (fl_two h) by lia. split; [rewrite <- fl_opp|]; apply fl_le; lra.
  Qed.
  Lemma b_mul x y h h' : (0 <= h + h' <= 1023)%Z -> Rabs x <= two h -> Rabs y <= two h' -> exists z, f_mul A (Fin x) (Fin y) = Fin z /\ Rabs z <= two (h + h').
  Proof. intros H X Y. apply fin_op; [exact H|]. rewrite Rabs_mult, bpow_plus. apply Rmult_le_compat; try apply Rabs_pos; assumption. Qed.
  Lemma b_add x y h : (0 <= h <= 1022)%Z -> Rabs x <= two h -> Rabs y <= two h -> exists z, f_add A (Fin x) (Fin y) = Fin z /\ Rabs z <= two (h + 1).
  Proof. intros H X Y. apply fin_op; [lia|]. rewrite bpow_plus. change (two 1) with 2. eapply Rle_trans; [apply Rabs_triang|]. lra. Qed.
  Lemma b_sub x y h : (0 <= h <= 1022)%Z -> Rabs x <= two h -> Rabs y <= two h -> exists z, f_sub A (Fin x) (Fin y) = Fin z /\ Rabs z <= two (h + 1).
  Proof. intros H X Y. apply (b_add x (- y) h H X). now rewrite Rabs_Ropp. Qed.
  Lemma b_weak x h h' : (h <= h')%Z -> Rabs x <= two h -> Rabs x <= two h'.
  Proof. intros H X. eapply Rle_trans; [exact X|]. now apply bpow_le. Qed.
  Lemma fl_twice y : two (-1022) <= y -> fl y <= 2 * y.
  Proof.
    intros H. pose proof eps_small. pose proof (two_pos (-1022)). destruct (mag radix2 y) as (e & He). specialize (He ltac:(lra)). rewrite Rabs_pos_eq in He by lra.
    assert (K : (-1022 <= e)%Z) by (apply (le_bpow radix2); lra).
    assert (N : near eps y (fl y)) by (apply (fl_near (-1022) e); [lia|right; lra]). destruct N as (k & [_ K2] & ->). pose proof (exp_lin eps ltac:(lra)). rewrite Rmult_comm. apply Rmult_le_compat_r; lra.
  Qed.

  Context (RL : rounded L) (tau mu : R).
  Hypothesis (St : sized (-60) 60 tau) (Pt : 0 < tau) (Hm : two (-10) <= mu <= 1 - two (-40)) (Fm : generic_format radix2 b64 mu) (Hq : tau / mu <= 700).
  Lemma mu_pos : 0 < mu < 1. Proof. pose proof (two_pos (-10)). pose proof (two_pos (-40)). lra. Qed.
  Lemma mu_size : sized (-60) 0 mu. Proof. pose proof mu_pos. right. rewrite two_0. assert (two (-60) <= two (-10)) by (apply bpow_le; lia). lra. Qed.
  Lemma eps_tiny : eps <= / 1000000. Proof. unfold eps. apply Rle_trans with (two (-20)); [apply bpow_le; lia|change (two (-20)) with (/ 1048576); lra]. Qed.
  Lemma up v z : near eps v z -> 0 <= v -> z <= (1 + 2 * eps) * v.
  Proof. intros (k & [_ K] & ->) Hv. rewrite Rmult_comm. apply Rmult_le_compat_r; [exact Hv|]. pose proof eps_small. pose proof (exp_lin eps ltac:(lra)). lra. Qed.
  Lemma quot_ok : exists d, f_div A (Fin tau) (Fin mu) = Fin d /\ f_div A (f_neg A (Fin tau)) (Fin mu) = Fin (- d) /\ near eps (tau / mu) d /\ fl d = d /\ 0 < d <= 700 + / 2.
  Proof.
    pose proof mu_pos as MP. pose proof eps_small as EP. pose proof eps_tiny as ET. assert (Qp : 0 < tau / mu) by (apply Rmult_lt_0_compat; [lra|apply Rinv_0_lt_compat; lra]).
    destruct (op_div L _ _ _ _ 0 0 _ _ _ _ St mu_size (near_refl _) (near_refl _) ltac:(lra) ltac:(lia) ltac:(lia) ltac:(lia)) as (d & E & Sd & N).
    assert (N' : near eps (tau / mu) d) by (eapply near_weak; [exact N|lra]). exists d. split; [exact E|].
    assert (B : Rabs (tau / mu) <= two 120) by (rewrite Rabs_pos_eq by lra; eapply Rle_trans; [exact Hq|]; apply Rle_trans with (two 10); [change (two 10) with 1024; lra|apply bpow_le; lia]).
    assert (W : d = fl (tau / mu) /\ f_div A (f_neg A (Fin tau)) (Fin mu) = Fin (- d)).
    { cbn [f_div f_neg binary64 xopp xdiv] in *. destruct (Req_EM_T mu 0); [lra|]. replace (- tau / mu) with (- (tau / mu)) by (field; lra).
      rewrite (ieee_fin (tau / mu) 120) in E by (try lia; exact B). rewrite (ieee_fin _ 120) by (try lia; rewrite Rabs_Ropp; exact B). injection E as <-. now rewrite fl_opp. }
    destruct W as (W & W'). split; [exact W'|]. split; [exact N'|]. pose proof (up _ _ N' ltac:(lra)). pose proof (near_low _ _ _ N' ltac:(lra)).
    split; [|nra]. rewrite W. unfold fl. apply round_generic; [apply valid_rnd_N|]. apply generic_format_round; [apply FLT_exp_valid, prec53|apply valid_rnd_N].
  Qed.
  Lemma exp_ok d : 0 < d <= 700 + / 2 -> exists a, f_exp A (Fin (- d)) = Fin a /\ 0 <= a <= 1 /\ a <= 2 * exp (- d).
  Proof.
    intros Hd. destruct RL as (RE & _). pose proof (exp_pos (- d)). assert (U : exp (- d) <= 1) by (rewrite <- exp_0; apply exp_le; lra).
    exists (fl (exp (- d))). cbn [f_exp binary64]. rewrite RE. cbn [xexp]. split; [apply (ieee_fin _ 0); [lia|rewrite Rabs_pos_eq by lra; rewrite two_0; exact U]|].
    split; [split; [rewrite <- fl_0; apply fl_le; lra|rewrite <- two_0, <- (fl_two 0) by lia; apply fl_le; rewrite two_0; exact U]|].
    apply fl_twice. apply Rle_trans with (exp (- (701))); [|apply exp_le; lra]. rewrite exp_Ropp. change (-1022)%Z with (- (1022))%Z. rewrite bpow_opp. apply Rinv_le_contravar; [apply exp_pos|].
    eapply Rle_trans; [apply exp_701|apply bpow_le; lia].
  Qed.
  Lemma hlp1_fin : exists v, g_hlp1 A (Fin mu) (Fin tau) = Fin v /\ Rabs v <= two 110.
  Proof.
    pose proof mu_pos as MP. pose proof eps_small as EP. pose proof eps_tiny as ET. pose proof mu_size as Sm. destruct quot_ok as (d & E & E' & N & Fd & Bd). destruct (exp_ok d Bd) as (a & Xa & Ba & Ba2).
    pose proof RL as (_ & RLg & RI & _). assert (Qp : 0 < tau / mu) by (apply Rmult_lt_0_compat; [lra|apply Rinv_0_lt_compat; lra]). pose proof (near_low _ _ _ N ltac:(lra)) as DL. pose proof (two_pos (-40)) as P40.
    assert (DE : two (-40) = 4096 * eps) by (unfold eps; change (-40)%Z with (12 + -52)%Z; rewrite bpow_plus; reflexivity).
    destruct (op_one L mu ltac:(lra) Fm) as (om & Eo & So & No).
    assert (Po : om <> 0) by (intros W; pose proof (near_zero _ _ _ No W); lra).
    destruct (op_div L _ _ _ _ 0 _ _ _ _ _ Sm So (near_refl _) No Po ltac:(lia) ltac:(lia) ltac:(lia)) as (q & Eq & Sq & Nq).
    assert (Pq : q <> 0) by (intros W; pose proof (near_zero _ _ _ Nq W) as Z; apply Rmult_integral in Z; destruct Z as [Z|Z]; [lra|]; assert (0 < / (1 - mu)) by (apply Rinv_0_lt_compat; lra); lra).
    destruct Sq as [Sq|Sq]; [contradiction|]. change (-60 - 0)%Z with (-60)%Z in Sq. change (0 - -53)%Z with 53%Z in Sq. pose proof (two_pos (-60)) as P60.
    assert (LB : Rabs (ln q) <= two 60).
    { assert (Q0 : 0 < q) by lra. assert (K : forall y, 0 < y -> ln y <= y) by (intros y Hy; pose proof (exp_ineq1_le (ln y)) as W; rewrite exp_ln in W by exact Hy; lra).
      pose proof (K q Q0). pose proof (K (/ q) ltac:(now apply Rinv_0_lt_compat)) as W. rewrite ln_Rinv in W by exact Q0. assert (/ q <= two 60) by (change 60%Z with (- (-60))%Z; rewrite bpow_opp; apply Rinv_le_contravar; lra).
      assert (two 53 <= two 60) by (apply bpow_le; lia). apply Rabs_le. lra. }
    assert (Y : exists l, f_log A (Fin q) = Fin l /\ Rabs l <= two 60).
    { cbn [f_log binary64]. rewrite RLg. cbn [xlog]. destruct (Rlt_dec 0 q); [|lra]. now apply fin_op. }
    destruct Y as (l & Yl & Bl). assert (T60 : two (-60) <= tau) by (destruct St as [W|[W _]]; lra).
    assert (Z : exists c, f_expi A (f_neg A (Fin tau)) = Fin c /\ Rabs c <= two 60).
    { cbn [f_expi f_neg binary64 xopp]. rewrite RI. cbn [xexpi]. destruct (Req_EM_T (- tau) 0); [lra|]. apply fin_op; [lia|].
      unfold Ei. destruct (Rlt_dec (- tau) 0); [|lra]. rewrite Ropp_involutive, E1_H by lra. assert (0 < / tau) by (now apply Rinv_0_lt_compat). pose proof (H1_le (/ tau) ltac:(lra)).
      assert (/ tau <= two 60) by (change 60%Z with (- (-60))%Z; rewrite bpow_opp; apply Rinv_le_contravar; lra). rewrite Rabs_Ropp, Rabs_pos_eq; lra. }
    destruct Z as (c & Zc & Bc).
    assert (LOW : two (-101) <= d - tau).
    { assert (TT : tau = tau / mu * mu) by (field; lra).
      assert (GAP : two (-41) * (tau / mu) <= d - tau) by (assert (two (-40) = 2 * two (-41)) by (change (-40)%Z with (1 + -41)%Z; rewrite bpow_plus; reflexivity); nra).
      assert (tau <= tau / mu) by nra. pose proof (two_pos (-41)). replace (two (-101)) with (two (-41) * two (-60)) by (rewrite <- bpow_plus; reflexivity). nra. }
    pose proof (two_pos (-101)) as P101.
    assert (U : exists u, f_sub A (Fin d) (Fin tau) = Fin u /\ two (-101) <= u <= d).
    { cbn [f_sub binary64 xsub xadd xopp]. assert (B10 : d + - tau <= two 10) by (change (two 10) with 1024; lra).
      rewrite (ieee_fin _ 10) by (try lia; rewrite Rabs_pos_eq by lra; exact B10). eexists. split; [reflexivity|].
      split; [rewrite <- (fl_two (-101)) by lia; apply fl_le; lra|]. rewrite <- Fd at 2. apply fl_le. lra. }
    destruct U as (u & Us & Bu).
    set (bnd := / u + u + u * exp u). assert (IU : / u <= two 101) by (change 101%Z with (- (-101))%Z; rewrite bpow_opp; apply Rinv_le_contravar; lra).
    assert (EU : exp u <= exp d) by (apply exp_le; lra). pose proof (exp_pos u) as XU. pose proof (exp_pos d) as XD. assert (IU0 : 0 < / u) by (apply Rinv_0_lt_compat; lra).
    assert (ED : exp d <= two 1012) by (eapply Rle_trans; [|apply exp_701]; apply exp_le; lra).
    assert (UE : 0 <= u * exp u <= 701 * exp d) by (split; [apply Rmult_le_pos; lra|apply Rmult_le_compat; lra]).
    assert (BB : bnd <= two 1022).
    { unfold bnd. assert (two 101 <= two 1012) by (apply bpow_le; lia). assert (two 10 <= two 1012) by (apply bpow_le; lia). change (two 10) with 1024 in *.
      assert (two 1022 = 1024 * two 1012) by (change 1022%Z with (10 + 1012)%Z; rewrite bpow_plus; reflexivity). lra. }
    assert (G : exists g, f_expi A (Fin u) = Fin g /\ Rabs g <= 2 * bnd).
    { cbn [f_expi binary64]. rewrite RI. cbn [xexpi]. destruct (Req_EM_T u 0); [lra|]. pose proof (Ei_abs u ltac:(lra)) as AB. fold bnd in AB. exists (fl (Ei u)). split; [apply (ieee_fin _ 1022); [lia|lra]|].
      apply Rle_trans with (fl bnd); [|apply fl_twice; apply Rle_trans with (two (-101)); [apply bpow_le; lia|unfold bnd; lra]].
      apply Rabs_le_between in AB. apply Rabs_le. rewrite <- fl_opp. split; apply fl_le; lra. }
    destruct G as (g & Eg & Bg).
    assert (PG : Rabs (a * g) <= two 105).
    { rewrite Rabs_mult, (Rabs_pos_eq a) by lra. apply Rle_trans with (2 * exp (- d) * (2 * (two 101 + 701 + 701 * exp d))).
      - apply Rmult_le_compat; [lra|apply Rabs_pos|lra|]. eapply Rle_trans; [exact Bg|]. unfold bnd. lra.
      - assert (X1 : exp (- d) * exp d = 1) by (rewrite <- exp_plus; replace (- d + d) with 0 by ring; apply exp_0). assert (X2 : exp (- d) <= 1) by (rewrite <- exp_0; apply exp_le; lra). pose proof (exp_pos (- d)).
        replace (2 * exp (- d) * (2 * (two 101 + 701 + 701 * exp d))) with (4 * (exp (- d) * (two 101 + 701) + 701 * (exp (- d) * exp d))) by ring. rewrite X1.
        assert (two 105 = 16 * two 101) by (change 105%Z with (4 + 101)%Z; rewrite bpow_plus; reflexivity). assert (two 10 <= two 101) by (apply bpow_le; lia). change (two 10) with 1024 in *. nra. }
    unfold g_hlp1. rewrite E', Xa, Eo, Eq, Yl, Zc, E, Us, Eg.
    assert (Ba' : Rabs a <= two 0) by (rewrite two_0, Rabs_pos_eq; lra).
    destruct (b_mul a l 0 60 ltac:(lia) Ba' Bl) as (t1 & -> & B1). destruct (b_sub t1 c 60 ltac:(lia) B1 Bc) as (t2 & -> & B2).
    destruct (fin_op (a * g) 105 ltac:(lia) PG) as (t3 & W & B3). change (f_mul A (Fin a) (Fin g)) with (ieee (Fin (a * g))). rewrite W.
    destruct (b_add t2 t3 105 ltac:(lia) (b_weak _ (60 + 1) 105 ltac:(lia) B2) B3) as (t4 & -> & B4). exists t4. split; [reflexivity|]. eapply b_weak; [|exact B4]. lia.
  Qed.
  Lemma pow_ok k : (k <= 66)%nat -> exists p, f_pow A (Fin mu) k = Fin p /\ two (-660) <= p <= 1.
  Proof.
    intros Hk. pose proof mu_pos as MP. destruct RL as (_ & _ & _ & _ & RP). cbn [f_pow binary64]. rewrite RP, xpow_Fin.
    assert (U : 0 < mu ^ k <= 1) by (split; [apply pow_lt; lra|]; rewrite <- (pow1 k); apply pow_incr; lra).
    assert (W : two (-660) <= mu ^ k).
    { apply Rle_trans with (two (-10) ^ k); [|apply pow_incr; split; [apply bpow_ge_0|lra]]. clear U. assert (E : forall j, two (-10) ^ j = two (-10 * Z.of_nat j)).
      { induction j as [|j IH]; [reflexivity|]. cbn [pow]. rewrite IH, <- bpow_plus. f_equal. lia. } rewrite E. apply bpow_le. lia. }
    exists (fl (mu ^ k)). split; [apply (ieee_fin _ 0); [lia|rewrite Rabs_pos_eq by lra; rewrite two_0; lra]|].
    split; [rewrite <- (fl_two (-660)) by lia|rewrite <- two_0, <- (fl_two 0) by lia]; apply fl_le; rewrite ?two_0; lra.
  Qed.
  Lemma En_le m : (2 <= m)%nat -> 0 <= En m tau <= 1.
  Proof.
    intros H. pose proof (is_En tau Pt m H) as I.
    assert (F : forall u, 0 < u < 1 -> 0 <= u ^ (m - 2) * exp (- tau / u) <= 1).
    { intros u Hu. assert (0 < u ^ (m - 2) <= 1) by (split; [apply pow_lt; lra|]; rewrite <- (pow1 (m - 2)); apply pow_incr; lra). pose proof (exp_pos (- tau / u)).
      assert (exp (- tau / u) <= 1) by (rewrite <- exp_0; apply exp_le; assert (0 <= tau / u) by (apply Rmult_le_pos; [lra|left; apply Rinv_0_lt_compat; lra]); replace (- tau / u) with (- (tau / u)) by (field; lra); lra). nra. }
    split.
    - apply (is_RInt_ge_0 _ 0 1 _ ltac:(lra) I). intros u Hu. apply F. exact Hu.
    - apply (is_RInt_le _ (fun _ => 1) 0 1 _ 1 ltac:(lra) I); [|intros u Hu; apply F; exact Hu].
      evar_last; [apply (is_RInt_const (V := R_NormedModule))|]. unfold scal; simpl; unfold mult; simpl. ring.
  Qed.
  Lemma inner_ok k : (1 <= k <= 66)%nat -> exists v, g_inner A (Fin mu) (Fin tau) k = Fin v /\ Rabs v <= two 661.
  Proof.
    intros Hk. destruct (pow_ok k ltac:(lia)) as (p & Ep & Bp). destruct quot_ok as (d & _ & E' & _ & _ & Bd). destruct (exp_ok d Bd) as (a & Xa & Ba & _).
    destruct RL as (_ & _ & _ & RN & _). unfold g_inner. rewrite Ep, E', Xa. pose proof (two_pos (-660)) as P.
    assert (NUM : forall j, (1 <= j <= 66)%nat -> exists q, f_num A (INR j) = Fin q /\ 1 <= q).
    { intros j Hj. assert (W : 1 <= INR j <= two 10) by (change (two 10) with (IZR 1024); rewrite INR_IZR_INZ; split; apply IZR_le; lia). exists (fl (INR j)). cbn [f_num binary64].
      split; [apply (ieee_fin _ 10); [lia|rewrite Rabs_pos_eq by lra; lra]|]. rewrite <- two_0, <- (fl_two 0) by lia. apply fl_le. rewrite two_0. lra. }
    destruct (NUM k Hk) as (q & Eq & Bq). destruct (NUM 1%nat ltac:(lia)) as (o & Eo & Bo0). rewrite Eq.
    assert (O1 : f_num A 1 = Fin 1) by (cbn [f_num binary64]; rewrite <- two_0; rewrite (ieee_fin _ 0) by (first [lia|rewrite Rabs_pos_eq by apply bpow_ge_0; lra]); now rewrite fl_two by lia). rewrite O1.
    assert (D1 : exists z, f_div A (Fin 1) (Fin p) = Fin z /\ Rabs z <= two 660).
    { cbn [f_div binary64 xdiv]. destruct (Req_EM_T p 0); [lra|]. apply fin_op; [lia|]. unfold Rdiv. rewrite Rmult_1_l, Rabs_pos_eq by (left; apply Rinv_0_lt_compat; lra).
      change 660%Z with (- (-660))%Z. rewrite bpow_opp. apply Rinv_le_contravar; lra. }
    destruct D1 as (z & -> & Bz).
    assert (D2 : exists y, f_div A (Fin a) (Fin q) = Fin y /\ Rabs y <= two 0).
    { cbn [f_div binary64 xdiv]. destruct (Req_EM_T q 0); [lra|]. apply fin_op; [lia|]. assert (0 < / q <= 1) by (split; [apply Rinv_0_lt_compat; lra|rewrite <- Rinv_1; apply Rinv_le_contravar; lra]).
      rewrite two_0, Rabs_pos_eq by (apply Rmult_le_pos; lra). unfold Rdiv. nra. }
    destruct D2 as (y & -> & By).
    assert (D3 : exists e, f_expn A (k + 1) (Fin tau) = Fin e /\ Rabs e <= two 0).
    { cbn [f_expn binary64]. rewrite RN. cbn [xexpn]. destruct (Rlt_dec tau 0); [lra|]. apply fin_op; [lia|]. destruct (En_le (k + 1) ltac:(lia)). rewrite two_0, Rabs_pos_eq; lra. }
    destruct D3 as (e & -> & Be). destruct (b_sub e y 0 ltac:(lia) Be By) as (w & -> & Bw). destruct (b_mul z w 660 1 ltac:(lia) Bz Bw) as (v & -> & Bv). exists v. split; [reflexivity|exact Bv].
  Qed.
  Lemma fnum0 : f_num A 0 = Fin 0.
  Proof. cbn [f_num binary64]. rewrite (ieee_fin _ 0) by (first [lia|rewrite Rabs_R0; apply bpow_ge_0]). now rewrite fl_0. Qed.
  Lemma sum_ok n : (n <= 64)%nat -> exists v, g_inner_sum A (Fin mu) (Fin tau) n = Fin v /\ Rabs v <= two 730.
  Proof.
    intros Hn. unfold g_inner_sum. rewrite fnum0.
    assert (G : forall l acc j, (forall k, In k l -> (1 <= k <= 66)%nat) -> (0 <= j)%Z -> (j + Z.of_nat (length l) <= 66)%Z -> Rabs acc <= two (661 + j) ->
      exists v, fold_left (fun acc k => f_add A acc (g_inner A (Fin mu) (Fin tau) k)) l (Fin acc) = Fin v /\ Rabs v <= two 730).
    { induction l as [|k l IH]; intros acc j Hl Hj Hb Ha; [exists acc; split; [reflexivity|]; eapply b_weak; [|exact Ha]; cbn [length] in Hb; lia|].
      cbn [length] in Hb. cbn [fold_left]. destruct (inner_ok k (Hl k (or_introl eq_refl))) as (i & -> & Bi).
      destruct (b_add acc i (661 + j) ltac:(lia) Ha ltac:(eapply b_weak; [|exact Bi]; lia)) as (v & -> & Bv). apply (IH v (j + 1)%Z); [intros k' Hk'; apply Hl; now right|lia|lia|].
      eapply b_weak; [|exact Bv]. lia. }
    apply (G _ 0 0%Z); [intros k Hk; apply in_seq in Hk; lia|lia|rewrite seq_length; lia|rewrite Rabs_R0; apply bpow_ge_0].
  Qed.
  Lemma S2_ok n : (n <= 64)%nat -> exists v, g_S2 A (Fin mu) (Fin tau) n = Fin v /\ Rabs v <= two 731.
  Proof.
    intros Hn. destruct (sum_ok n Hn) as (s & Es & Bs). destruct hlp1_fin as (h & Eh & Bh). unfold g_S2. rewrite Es, Eh.
    destruct (b_add s h 730 ltac:(lia) Bs ltac:(eapply b_weak; [|exact Bh]; lia)) as (v & -> & Bv). exists v. split; [reflexivity|exact Bv].
  Qed.
  Lemma Fint_ok cs : (length cs <= 64)%nat -> (forall c, In c cs -> Rabs c <= two 40) -> exists v, g_Fint A (map Fin cs) (Fin mu) (Fin tau) = Fin v /\ Rabs v <= two 840.
  Proof.
    intros Hl Hc. unfold g_Fint. rewrite map_length, fnum0.
    assert (G : forall l, (forall k, In k l -> (k < length cs)%nat) -> (length l <= 64)%nat ->
      exists v, fold_right (fun k acc => f_add A (f_mul A (nth k (map Fin cs) NaN) (f_mul A (f_pow A (Fin mu) (k + 1)) (g_S2 A (Fin mu) (Fin tau) k))) acc) (Fin 0) l = Fin v /\
        Rabs v <= two (771 + Z.of_nat (length l))).
    { induction l as [|k l IH]; intros Hi Hn; [exists 0; split; [reflexivity|rewrite Rabs_R0; apply bpow_ge_0]|]. cbn [length] in Hn. cbn [fold_right].
      destruct IH as (v & -> & Bv); [intros k' Hk'; apply Hi; now right|lia|]. pose proof (Hi k (or_introl eq_refl)) as Hk.
      destruct (S2_ok k ltac:(lia)) as (s & -> & Bs). destruct (pow_ok (k + 1) ltac:(lia)) as (p & -> & Bp).
      assert (Bp' : Rabs p <= two 0) by (rewrite two_0, Rabs_pos_eq; pose proof (two_pos (-660)); lra).
      destruct (b_mul p s 0 731 ltac:(lia) Bp' Bs) as (w & -> & Bw). rewrite (nth_indep _ NaN (Fin 0)) by (rewrite map_length; exact Hk). rewrite map_nth.
      destruct (b_mul (nth k cs 0) w 40 731 ltac:(lia) (Hc _ (nth_In _ _ Hk)) Bw) as (x & -> & Bx).
      destruct (b_add x v (771 + Z.of_nat (length l)) ltac:(lia) ltac:(eapply b_weak; [|exact Bx]; lia) Bv) as (y & -> & By). exists y. split; [reflexivity|]. eapply b_weak; [|exact By]. cbn [length]. lia. }
    destruct (G (seq 0 (length cs))) as (v & -> & Bv); [intros k Hk; apply in_seq in Hk; lia|now rewrite seq_length|]. exists v. split; [reflexivity|]. eapply b_weak; [|exact Bv]. rewrite seq_length. lia.
  Qed.
End Finite.
(** a direction for which the exponentials stay in range *)
Definition moderate (tau mu : R) : Prop := two (-10) <= mu <= 1 - two (-40) /\ generic_format radix2 b64 mu /\ tau / mu <= 700.
Theorem C99_interaction_partial : forall L i0 om norm bsf tau mu0 muex cs1 cs2,
  rounded L -> sized (-60) 60 tau -> 0 < tau -> moderate tau mu0 -> moderate tau muex ->
  (length cs1 <= 64)%nat -> (length cs2 <= 64)%nat -> (forall c, In c cs1 \/ In c cs2 -> Rabs c <= two 40) ->
  Rabs i0 <= two 40 -> Rabs om <= two 40 -> Rabs norm <= two 40 -> 0 <= bsf <= 1 ->
  let A := binary64 L in
  exists v, g_interaction A (Fin i0) (Fin mu0) (Fin muex) (Fin om) (Fin tau) (Fin norm) (Fin bsf)
    (g_Fint A (map Fin cs1) (Fin mu0) (Fin tau)) (g_Fint A (map Fin cs2) (Fin muex) (Fin tau)) = Fin v.
Proof.
  intros L i0 om norm bsf tau mu0 muex cs1 cs2 RL St Pt (M0 & F0 & Q0) (M1 & F1 & Q1) L1 L2 HC HI HO HN HB A.
  destruct (Fint_ok L RL tau mu0 St Pt M0 F0 Q0 cs1 L1 (fun c H => HC c (or_introl H))) as (f1 & E1 & B1). destruct (Fint_ok L RL tau muex St Pt M1 F1 Q1 cs2 L2 (fun c H => HC c (or_intror H))) as (f2 & E2 & B2).
  destruct (quot_ok L tau mu0 St Pt M0 Q0) as (d0 & _ & D0 & _ & _ & X0). destruct (quot_ok L tau muex St Pt M1 Q1) as (d1 & _ & D1 & _ & _ & X1).
  destruct (exp_ok L RL d0 X0) as (a0 & A0 & Y0 & _). destruct (exp_ok L RL d1 X1) as (a1 & A1 & Y1 & _).
  unfold g_interaction. fold A in E1, E2, D0, D1, A0, A1. rewrite E1, E2, D0, D1, A0, A1.
  assert (W : forall z, 0 <= z <= 1 -> Rabs z <= two 0) by (intros z Hz; rewrite two_0, Rabs_pos_eq; lra). pose proof (mu_pos mu0 M0) as MP.
  assert (O1 : f_num A 1 = Fin 1) by (cbn [f_num A binary64]; rewrite <- two_0; rewrite (ieee_fin _ 0) by (first [lia|rewrite Rabs_pos_eq by apply bpow_ge_0; lra]); now rewrite fl_two by lia). rewrite O1. unfold A.
  destruct (b_sub L 1 bsf 0 ltac:(lia) (W 1 ltac:(lra)) (W _ HB)) as (z1 & -> & Z1). destruct (b_mul L norm z1 40 1 ltac:(lia) HN Z1) as (z2 & -> & Z2).
  destruct (b_mul L i0 mu0 40 0 ltac:(lia) HI (W mu0 ltac:(lra))) as (z3 & -> & Z3). destruct (b_mul L z3 om 40 40 ltac:(lia) Z3 HO) as (z4 & -> & Z4).
  destruct (b_mul L a1 f1 0 840 ltac:(lia) (W _ Y1) B1) as (z5 & -> & Z5). destruct (b_mul L a0 f2 0 840 ltac:(lia) (W _ Y0) B2) as (z6 & -> & Z6).
  destruct (b_add L z5 z6 840 ltac:(lia) Z5 Z6) as (z7 & -> & Z7). destruct (b_mul L z4 z7 80 841 ltac:(lia) Z4 Z7) as (z8 & -> & Z8).
  destruct (b_mul L z2 z8 41 921 ltac:(lia) Z2 Z8) as (z9 & -> & _). now exists z9.
Qed.
Print Assumptions C99_interaction_partial.

(** Instances: the layer tau = 200 seen under cos = 1/8 (83 degrees), and tau = 1 under cos = 1/2. *)
Example C99_nonvacuous :
  (rounded lib_ex /\ 0 < 1 / 8 < 1 /\ 0 < 200 /\ thick 200 (1 / 8) /\ (1 :: 2 :: nil) <> nil) /\
  (sized (-60) 60 1 /\ 0 < 1 /\ moderate 1 (two (-1)) /\ (length ((1 :: -2 :: nil)%R) <= 64)%nat /\ (forall c, In c (1 :: -2 :: nil) -> Rabs c <= two 40)).
Proof.
  assert (P : two (-60) <= / 1048576) by (change (/ 1048576) with (two (-20)); apply bpow_le; lia). assert (Q : two (-40) <= / 1048576) by (change (/ 1048576) with (two (-20)); apply bpow_le; lia). destruct two_num as (T1 & _).
  split.
  - split; [repeat split|]. split; [lra|]. split; [lra|]. split; [|discriminate]. split; [lra|]. split; [lra|]. apply Rle_trans with (two 10); [change (two 10) with 1024; lra|apply bpow_le; lia].
  - split; [rewrite <- two_0; apply sized_two; lia|]. split; [lra|]. split; [unfold moderate; rewrite T1; split; [change (two (-10)) with (/ 1024); lra|]; split; [rewrite <- T1; apply fmt_two; lia|lra]|].
    split; [cbn; lia|]. intros c Hc. assert (two 10 <= two 40) by (apply bpow_le; lia). change (two 10) with 1024 in *. cbn [In] in Hc. apply Rabs_le. destruct Hc as [<-|[<-|[]]]; lra.
Qed.
