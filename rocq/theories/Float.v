(** The numerical kernels in floating-point arithmetic.

    The rest of the model computes with exact reals.  Here the same operations, in the same order, are performed with
    an arbitrary arithmetic [A] on extended reals; [exact] is the arithmetic of the rest of the model and [binary64 L]
    is IEEE double precision with round-to-nearest-even, underflow and overflow, and the elementary functions [L] of
    the platform (numpy, scipy).  Simplification: one zero (no signed zeros). *)
From Flocq Require Import Core Relative.
From Coquelicot Require Import Rcomplements.
From Coq Require Import ZArith Reals Lra Lia List.
From Verif Require Import Elem FintEl.
Open Scope R_scope.

Record arith : Type := mk_arith {
  f_add : xr -> xr -> xr; f_sub : xr -> xr -> xr; f_mul : xr -> xr -> xr; f_div : xr -> xr -> xr; f_neg : xr -> xr;
  f_num : R -> xr;
  f_exp : xr -> xr; f_log : xr -> xr; f_expi : xr -> xr; f_expn : nat -> xr -> xr; f_pow : xr -> nat -> xr; f_cos : xr -> xr }.

Section Kernels.
  Context (A : arith).
  Notation "1" := (f_num A 1).
  (** _calc.py:622, 653: np.exp(-(tau / mu_0) - (tau / mu_ex)) *)
  Definition g_atten (tau mu0 muex : xr) : xr := f_exp A (f_sub A (f_neg A (f_div A tau mu0)) (f_div A tau muex)).
  (** _calc.py:610-620: I0 * mu_0 * SRF.calc(...) *)
  Definition g_bare (i0 mu0 srf : xr) : xr := f_mul A (f_mul A i0 mu0) srf.
  (** _calc.py:624: (1.0 - bsf) * a + bsf * b *)
  Definition g_mix (bsf a b : xr) : xr := f_add A (f_mul A (f_sub A 1 bsf) a) (f_mul A bsf b).
  (** _calc.py:608-624 _surface, from the values of mu_0, mu_ex and SRF.calc *)
  Definition g_surface (i0 mu0 muex srf tau norm bsf : xr) : xr :=
    f_mul A norm (g_mix bsf (f_mul A (g_atten tau mu0 muex) (g_bare i0 mu0 srf)) (g_bare i0 mu0 srf)).
  (** _calc.py:649-663 _volume, from the values of mu_0, mu_ex and V.calc *)
  Definition g_vol (i0 om mu0 muex tau v : xr) : xr :=
    f_mul A (f_mul A (f_div A (f_mul A (f_mul A i0 om) mu0) (f_add A mu0 muex)) (f_sub A 1 (g_atten tau mu0 muex))) v.
  Definition g_volume (i0 om mu0 muex tau v bsf : xr) : xr := f_mul A (f_sub A 1 bsf) (g_vol i0 om mu0 muex tau v).
  (** _calc.py:720-725 _convert_sig0_db with sig0=True, dB=False: val * (4.0 * np.pi * mu_0 / I0) *)
  Definition g_sig0 (i0 mu0 val : xr) : xr := f_mul A val (f_div A (f_mul A (f_mul A (f_num A 4) (f_num A PI)) mu0) i0).
  (** _calc.py:1069-1073 hlp1 *)
  Definition g_hlp1 (mu tau : xr) : xr :=
    f_add A (f_sub A (f_mul A (f_exp A (f_div A (f_neg A tau) mu)) (f_log A (f_div A mu (f_sub A 1 mu)))) (f_expi A (f_neg A tau)))
            (f_mul A (f_exp A (f_div A (f_neg A tau) mu)) (f_expi A (f_sub A (f_div A tau mu) tau))).
  (** _calc.py:1076-1078 innerfunc *)
  Definition g_inner (mu tau : xr) (k : nat) : xr :=
    f_mul A (f_div A 1 (f_pow A mu k)) (f_sub A (f_expn A (k + 1) tau) (f_div A (f_exp A (f_div A (f_neg A tau) mu)) (f_num A (INR k)))).
  (** _calc.py:1080-1087 the n-th element of S2 + hlp1 *)
  Definition g_inner_sum (mu tau : xr) (n : nat) : xr :=
    fold_left (fun acc k => f_add A acc (g_inner mu tau k)) (seq 1 (n + 1)) (f_num A 0).
  Definition g_S2 (mu tau : xr) (n : nat) : xr := f_add A (g_inner_sum mu tau n) (g_hlp1 mu tau).
  (** _calc.py:1110-1114, 1137-1141: the sum over n of fn * (mu ** (n + 1) * S2), from the values fn *)
  Definition g_Fint (fs : list xr) (mu tau : xr) : xr :=
    fold_right (fun k acc => f_add A (f_mul A (nth k fs NaN) (f_mul A (f_pow A mu (k + 1)) (g_S2 mu tau k))) acc)
               (f_num A 0) (seq 0 (length fs)).
  (** _calc.py:688-703 _interaction, from the values of the two integrals *)
  Definition g_interaction (i0 mu0 muex om tau norm bsf f1 f2 : xr) : xr :=
    f_mul A (f_mul A norm (f_sub A 1 bsf))
      (f_mul A (f_mul A (f_mul A i0 mu0) om)
        (f_add A (f_mul A (f_exp A (f_div A (f_neg A tau) muex)) f1) (f_mul A (f_exp A (f_div A (f_neg A tau) mu0)) f2))).
End Kernels.

(** ** The arithmetic of the rest of the model *)
Definition exact : arith := mk_arith xadd xsub xmul xdiv xopp Fin xexp xlog xexpi xexpn xpow xcos.
(** with it, the kernels above are the elements of the kernels of Kernels.v *)
Lemma exact_kernels :
  (forall i0 mu0 muex srf tau norm bsf, g_surface exact i0 mu0 muex srf tau norm bsf = x_surface i0 mu0 muex srf tau norm bsf) /\
  (forall i0 om mu0 muex tau v bsf, g_volume exact i0 om mu0 muex tau v bsf = x_volume i0 om mu0 muex tau v bsf) /\
  (forall mu tau, g_hlp1 exact mu tau = x_hlp1 mu tau) /\ (forall fs mu tau, g_Fint exact fs mu tau = x_Fint fs mu tau) /\
  (forall i0 mu0 muex om tau norm bsf f1 f2, g_interaction exact i0 mu0 muex om tau norm bsf f1 f2 = x_interaction i0 mu0 muex om tau norm bsf f1 f2).
Proof. repeat split. Qed.
(** of surface(), volume() and interaction() of the model at one position *)
Lemma exact_surface i0 mu0 muex srf tau norm bsf a i : k_surface i0 mu0 muex srf tau norm bsf = Ok a ->
  bget a i = g_surface exact (bget i0 i) (bget mu0 i) (bget muex i) (bget srf i) (bget tau i) (bget norm i) (bget bsf i).
Proof. apply k_surface_el. Qed.
Lemma exact_volume i0 om mu0 muex tau v bsf a i : k_volume i0 om mu0 muex tau v bsf = Ok a ->
  bget a i = g_volume exact (bget i0 i) (bget om i) (bget mu0 i) (bget muex i) (bget tau i) (bget v i) (bget bsf i).
Proof. apply k_volume_el. Qed.

(** ** IEEE double precision *)
Notation b64 := (FLT_exp (-1074) 53).
Notation two := (bpow radix2).
Definition fl (r : R) : R := round radix2 b64 ZnearestE r.
(** round to nearest, ties to even; 2^1024 and more is infinite *)
Definition ieee (a : xr) : xr :=
  match a with
  | Fin r => if Rle_dec (two 1024) (fl r) then PInf else if Rle_dec (fl r) (- two 1024) then NInf else Fin (fl r)
  | _ => a
  end.
(** elementary functions: exp, log, scipy's expi and expn, integer powers, cos *)
Record libm : Type := mk_libm { l_exp : xr -> xr; l_log : xr -> xr; l_expi : xr -> xr; l_expn : nat -> xr -> xr; l_pow : xr -> nat -> xr; l_cos : xr -> xr }.
Definition binary64 (L : libm) : arith :=
  mk_arith (fun a b => ieee (xadd a b)) (fun a b => ieee (xsub a b)) (fun a b => ieee (xmul a b)) (fun a b => ieee (xdiv a b)) xopp
    (fun r => ieee (Fin r)) (l_exp L) (l_log L) (l_expi L) (l_expn L) (l_pow L) (l_cos L).

(** ** Relative error *)
(** [z] is [v] up to a factor between exp(-d) and exp(d) *)
Definition near (d v z : R) : Prop := exists k, exp (- d) <= k <= exp d /\ z = v * k.
(** machine epsilon, np.finfo(float).eps *)
Definition eps : R := two (-52).
(** 0 or between 2^lo and 2^hi *)
Definition sized (lo hi : Z) (x : R) : Prop := x = 0 \/ two lo <= x <= two hi.

Lemma near_refl v : near 0 v v.
Proof. exists 1. rewrite Ropp_0, exp_0. lra. Qed.
Lemma exp_le x y : x <= y -> exp x <= exp y.
Proof. intros [H| ->]; [left; now apply exp_increasing|lra]. Qed.
Lemma near_weak d d' v z : near d v z -> d <= d' -> near d' v z.
Proof. intros (k & [K1 K2] & ->) H. exists k. split; [|reflexivity]. pose proof (exp_le (- d') (- d) ltac:(lra)). pose proof (exp_le d d' H). lra. Qed.
Lemma near_trans d d' v z y : near d v z -> near d' z y -> near (d + d') v y.
Proof.
  intros (k & [K1 K2] & ->) (l & [L1 L2] & ->). exists (k * l). split; [|ring]. replace (- (d + d')) with (- d + - d') by ring. rewrite !exp_plus.
  pose proof (exp_pos (- d)). pose proof (exp_pos (- d')). split; apply Rmult_le_compat; lra.
Qed.
Lemma near_mul d d' v z v' z' : near d v z -> near d' v' z' -> near (d + d') (v * v') (z * z').
Proof.
  intros (k & [K1 K2] & ->) (l & [L1 L2] & ->). exists (k * l). split; [|ring]. replace (- (d + d')) with (- d + - d') by ring. rewrite !exp_plus.
  pose proof (exp_pos (- d)). pose proof (exp_pos (- d')). split; apply Rmult_le_compat; lra.
Qed.
Lemma near_inv d v z : near d v z -> v <> 0 -> near d (/ v) (/ z).
Proof.
  intros (k & [K1 K2] & ->) H. pose proof (exp_pos (- d)). exists (/ k). split; [|now rewrite Rinv_mult].
  split; [rewrite exp_Ropp; apply Rinv_le_contravar; lra|]. replace d with (- - d) at 1 by ring. rewrite (exp_Ropp (- d)). apply Rinv_le_contravar; lra.
Qed.
Lemma near_div d d' v z v' z' : near d v z -> near d' v' z' -> v' <> 0 -> near (d + d') (v / v') (z / z').
Proof. intros H1 H2 N. apply near_mul; [assumption|now apply near_inv]. Qed.
Lemma near_add d v z v' z' : near d v z -> near d v' z' -> 0 <= v -> 0 <= v' -> near d (v + v') (z + z').
Proof.
  intros (k & [K1 K2] & ->) (l & [L1 L2] & ->) P P'. pose proof (exp_pos (- d)).
  destruct (Req_dec (v + v') 0) as [E|E].
  - assert (v = 0) by lra. assert (v' = 0) by lra. subst. exists k. split; [lra|ring].
  - exists ((v * k + v' * l) / (v + v')). split; [|field; assumption].
    assert (B : 0 < v + v') by lra. split; apply Rmult_le_reg_r with (v + v'); try assumption; unfold Rdiv; rewrite Rmult_assoc, Rinv_l, Rmult_1_r by assumption; nra.
Qed.
Lemma near_bound d v z : near d v z -> Rabs (z - v) <= (exp d - 1) * Rabs v.
Proof.
  intros (k & [K1 K2] & ->). replace (v * k - v) with ((k - 1) * v) by ring. rewrite Rabs_mult. apply Rmult_le_compat_r; [apply Rabs_pos|].
  assert (exp (- d) * exp d = 1) by (rewrite <- exp_plus; replace (- d + d) with 0 by ring; apply exp_0). pose proof (exp_pos d). pose proof (exp_pos (- d)).
  apply Rabs_le. split; [|lra]. nra.
Qed.
Lemma near_pos d v z : near d v z -> 0 <= v -> 0 <= z.
Proof. intros (k & [K1 K2] & ->) H. pose proof (exp_pos (- d)). apply Rmult_le_pos; lra. Qed.
Lemma near_zero d v z : near d v z -> z = 0 -> v = 0.
Proof. intros (k & [K1 K2] & ->) H. pose proof (exp_pos (- d)). apply Rmult_integral in H. destruct H; lra. Qed.
Lemma exp_diff x y d : Rabs (x - y) <= d -> near d (exp y) (exp x).
Proof.
  intros H. apply Rabs_le_between in H. exists (exp (x - y)). split; [split; apply exp_le; lra|]. rewrite <- exp_plus. f_equal. ring.
Qed.

(** ** Rounding *)
Global Instance prec53 : Prec_gt_0 53. Proof. reflexivity. Qed.
Lemma two_pos e : 0 < two e. Proof. apply bpow_gt_0. Qed.
Lemma sized_pos lo hi x : sized lo hi x -> 0 <= x.
Proof. pose proof (two_pos lo). intros [->|H']; lra. Qed.
Lemma eps_small : 0 < eps <= / 1024.
Proof. unfold eps. split; [apply two_pos|]. apply Rle_trans with (two (-10)); [apply bpow_le; lia|]. right. reflexivity. Qed.
Lemma fl_0 : fl 0 = 0. Proof. apply round_0. apply valid_rnd_N. Qed.
Lemma fl_opp x : fl (- x) = - fl x. Proof. apply round_NE_opp. Qed.
Lemma fl_le x y : x <= y -> fl x <= fl y. Proof. apply round_le; [apply FLT_exp_valid, prec53|apply valid_rnd_N]. Qed.
Lemma fl_two e : (-1074 <= e)%Z -> fl (two e) = two e.
Proof. intros H. apply round_generic; [apply valid_rnd_N|]. apply generic_format_FLT_bpow; [exact prec53|assumption]. Qed.
Lemma fl_sized lo hi x : (-1074 <= lo)%Z -> (lo <= hi)%Z -> sized lo hi x -> sized lo hi (fl x).
Proof.
  intros Hl Hh [->|[A B]]; [left; apply fl_0|right]. rewrite <- (fl_two lo), <- (fl_two hi) by lia. split; now apply fl_le.
Qed.
Lemma one_eps : exp (- eps) <= 1 - eps / 2 /\ 1 + eps / 2 <= exp eps.
Proof.
  pose proof eps_small as [E1 E2]. split.
  - rewrite exp_Ropp. pose proof (exp_ineq1_le eps). pose proof (exp_pos eps). apply Rmult_le_reg_l with (exp eps); [assumption|]. rewrite Rinv_r by lra. nra.
  - pose proof (exp_ineq1_le eps). lra.
Qed.
Lemma fl_near lo hi x : (-1022 <= lo)%Z -> sized lo hi x -> near eps x (fl x).
Proof.
  intros Hl [->|[A B]]; [rewrite fl_0; eapply near_weak; [apply near_refl|]; pose proof eps_small; lra|].
  pose proof (two_pos lo) as P. assert (X : 0 < x) by lra.
  assert (Q : two (-1074 + 53 - 1) <= Rabs x) by (rewrite Rabs_pos_eq by lra; apply Rle_trans with (two lo); [apply bpow_le; lia|assumption]).
  pose proof (relative_error_N_FLT radix2 (-1074) 53 eq_refl (fun x => negb (Z.even x)) x Q) as K. fold (fl x) in K. change (two (- (53) + 1)) with eps in K.
  rewrite (Rabs_pos_eq x) in K by lra. exists (fl x / x). split; [|field; lra].
  destruct one_eps as [O1 O2]. apply Rabs_le_between in K.
  pose proof (Rmult_le_compat_r x _ _ ltac:(lra) O1). pose proof (Rmult_le_compat_r x _ _ ltac:(lra) O2).
  split; apply Rmult_le_reg_r with x; try assumption; replace (fl x / x * x) with (fl x) by (field; lra); lra.
Qed.
Lemma ieee_fin x hi : (hi <= 1023)%Z -> Rabs x <= two hi -> ieee (Fin x) = Fin (fl x).
Proof.
  intros H A. apply Rabs_le_between in A. unfold ieee.
  assert (B : two hi < two 1024) by (apply bpow_lt; lia).
  assert (C : - two 1023 <= fl x <= two 1023).
  { rewrite <- (fl_two 1023) by lia. rewrite <- fl_opp. assert (two hi <= two 1023) by (apply bpow_le; lia). split; apply fl_le; lra. }
  assert (D : two 1023 < two 1024) by (apply bpow_lt; lia).
  destruct (Rle_dec (two 1024) (fl x)); [lra|]. destruct (Rle_dec (fl x) (- two 1024)); [lra|reflexivity].
Qed.
Lemma sized_mul lo hi lo' hi' x y : sized lo hi x -> sized lo' hi' y -> sized (lo + lo') (hi + hi') (x * y).
Proof.
  intros [->|[A B]]; [intros _; left; ring|]. intros [->|[C D]]; [left; ring|right]. rewrite !bpow_plus. pose proof (two_pos lo). pose proof (two_pos lo').
  split; apply Rmult_le_compat; lra.
Qed.
Lemma sized_div lo hi lo' hi' x y : sized lo hi x -> sized lo' hi' y -> y <> 0 -> sized (lo - hi') (hi - lo') (x / y).
Proof.
  intros [->|[A B]]; [intros _ _; left; unfold Rdiv; ring|]. intros [->|[C D]] N; [lra|right]. unfold Z.sub. rewrite !bpow_plus, !bpow_opp. unfold Rdiv. pose proof (two_pos lo). pose proof (two_pos lo').
  split; (apply Rmult_le_compat; [lra| |lra|apply Rinv_le_contravar; lra]); left; apply Rinv_0_lt_compat; lra.
Qed.
Lemma sized_add lo hi x y : sized lo hi x -> sized lo hi y -> sized lo (hi + 1) (x + y).
Proof.
  intros H1 H2. pose proof (sized_pos _ _ _ H1). pose proof (sized_pos _ _ _ H2). pose proof (two_pos lo). pose proof (two_pos hi).
  assert (E : two (hi + 1) = 2 * two hi) by (rewrite bpow_plus_1; reflexivity).
  destruct H1 as [->|[A B]], H2 as [->|[C D]]; [left; ring|right..]; rewrite E; lra.
Qed.
Lemma sized_weak lo hi lo' hi' x : sized lo hi x -> (lo' <= lo)%Z -> (hi <= hi')%Z -> sized lo' hi' x.
Proof. intros [->|[A B]] H1 H2; [now left|right]. pose proof (bpow_le radix2 _ _ H1). pose proof (bpow_le radix2 _ _ H2). lra. Qed.

(** ** One operation *)
Lemma op_round lo hi x : (-1022 <= lo)%Z -> (lo <= hi)%Z -> (hi <= 1023)%Z -> sized lo hi x ->
  exists z, ieee (Fin x) = Fin z /\ sized lo hi z /\ near eps x z.
Proof.
  intros H1 H2 H3 H. exists (fl x). split; [|split; [apply fl_sized; try lia; assumption|now apply (fl_near lo hi)]].
  apply (ieee_fin x hi H3). pose proof (two_pos hi). destruct H as [->|[A B]]; [rewrite Rabs_R0; lra|]. pose proof (two_pos lo). rewrite Rabs_pos_eq; lra.
Qed.
Section Ops.
  Context (L : libm).
  Notation A := (binary64 L).
  Lemma op_mul lo hi lo' hi' d d' v v' x y : sized lo hi x -> sized lo' hi' y -> near d v x -> near d' v' y ->
    (-1022 <= lo + lo')%Z -> (lo + lo' <= hi + hi')%Z -> (hi + hi' <= 1023)%Z ->
    exists z, f_mul A (Fin x) (Fin y) = Fin z /\ sized (lo + lo') (hi + hi') z /\ near (d + d' + eps) (v * v') z.
  Proof.
    intros S1 S2 N1 N2 H1 H2 H3. destruct (op_round _ _ _ H1 H2 H3 (sized_mul _ _ _ _ _ _ S1 S2)) as (z & E & S & N). exists z. split; [exact E|]. split; [exact S|].
    eapply near_trans; [exact (near_mul _ _ _ _ _ _ N1 N2)|exact N].
  Qed.
  Lemma op_div lo hi lo' hi' d d' v v' x y : sized lo hi x -> sized lo' hi' y -> near d v x -> near d' v' y -> y <> 0 ->
    (-1022 <= lo - hi')%Z -> (lo - hi' <= hi - lo')%Z -> (hi - lo' <= 1023)%Z ->
    exists z, f_div A (Fin x) (Fin y) = Fin z /\ sized (lo - hi') (hi - lo') z /\ near (d + d' + eps) (v / v') z.
  Proof.
    intros S1 S2 N1 N2 Y H1 H2 H3. destruct (op_round _ _ _ H1 H2 H3 (sized_div _ _ _ _ _ _ S1 S2 Y)) as (z & E & S & N). exists z.
    split; [cbn [f_div binary64 xdiv]; destruct (Req_EM_T y 0); [contradiction|exact E]|]. split; [exact S|].
    assert (v' <> 0) by (intros ->; apply Y; destruct N2 as (k & _ & ->); ring). eapply near_trans; [apply (near_div _ _ _ _ _ _ N1 N2); assumption|exact N].
  Qed.
  Lemma op_add lo hi d v v' x y : sized lo hi x -> sized lo hi y -> near d v x -> near d v' y -> 0 <= v -> 0 <= v' ->
    (-1022 <= lo)%Z -> (lo <= hi)%Z -> (hi + 1 <= 1023)%Z ->
    exists z, f_add A (Fin x) (Fin y) = Fin z /\ sized lo (hi + 1) z /\ near (d + eps) (v + v') z.
  Proof.
    intros S1 S2 N1 N2 P P' H1 H2 H3. destruct (op_round lo (hi + 1) (x + y) H1 ltac:(lia) H3 (sized_add _ _ _ _ S1 S2)) as (z & E & S & N). exists z.
    split; [exact E|]. split; [exact S|]. eapply near_trans; [apply (near_add _ _ _ _ _ N1 N2); assumption|exact N].
  Qed.
  (** 1.0 - x for x in [0, 1] that is a binary64 number *)
  Lemma num_1 : f_num A 1 = Fin 1.
  Proof. cbn [f_num binary64]. rewrite (ieee_fin 1 0) by (try lia; rewrite Rabs_R1; simpl; lra). f_equal. change 1 with (two 0). apply fl_two. lia. Qed.
  Lemma below_one x : generic_format radix2 b64 x -> x < 1 -> x <= 1 - two (-53).
  Proof.
    intros F H. assert (F1 : generic_format radix2 b64 (two 0)) by (apply generic_format_FLT_bpow; [exact prec53|lia]).
    assert (V : Valid_exp b64) by (apply FLT_exp_valid, prec53).
    pose proof (pred_ge_gt radix2 b64 x (two 0) F F1 H) as K. rewrite pred_bpow in K. change (b64 0%Z) with (-53)%Z in K. change (two 0) with 1 in K. exact K.
  Qed.
  Lemma op_one x : 0 <= x <= 1 -> generic_format radix2 b64 x ->
    exists z, f_sub A (f_num A 1) (Fin x) = Fin z /\ sized (-53) 0 z /\ near eps (1 - x) z.
  Proof.
    intros H F. rewrite num_1. apply (op_round (-53) 0 (1 + - x)); try lia.
    destruct (Req_dec x 1) as [->|N]; [left; ring|right]. pose proof (below_one x F ltac:(lra)). change (two 0) with 1. lra.
  Qed.
End Ops.
