(** The double Simpson rule of hemreflect converges to the hemispherical reflectance of every
    uniformly continuous BRDF.  Nothing here refers to the model of the program. *)
From Coquelicot Require Import Coquelicot.
From Coq Require Import Reals Lia Lra List.
From Verif Require Import ExpInt AzInt LegFacts.
From Verif Require Import SpecScat SpecExp SpecInt FnInt Flip Trunc SpecFig Quad.
Open Scope R_scope.

(** ** Jointly uniformly continuous functions of a direction *)
Definition uc (v : R -> R -> R) : Prop :=
  forall eps, 0 < eps -> exists d, 0 < d /\ forall th th' ph ph', Rabs (th - th') < d -> Rabs (ph - ph') < d -> Rabs (v th ph - v th' ph') <= eps.
Lemma cos_lip x y : Rabs (cos x - cos y) <= Rabs (x - y).
Proof.
  destruct (MVT_gen cos y x (fun u => - sin u)) as (c & _ & E).
  - intros z _. apply is_derive_Reals. apply derivable_pt_lim_cos.
  - intros z _. apply continuity_cos.
  - rewrite E, Rabs_mult, Rabs_Ropp. pose proof (Rabs_pos (x - y)). assert (Rabs (sin c) <= 1) by (apply Rabs_le, SIN_bound). nra.
Qed.
Lemma sin_lip x y : Rabs (sin x - sin y) <= Rabs (x - y).
Proof.
  rewrite <- !cos_shift. eapply Rle_trans; [apply cos_lip|]. replace (PI / 2 - x - (PI / 2 - y)) with (- (x - y)) by ring. rewrite Rabs_Ropp. lra.
Qed.
Lemma cos_angle_lip_ph a t th p ph ph' : unit_g a ->
  Rabs (cos_angle a t th p ph - cos_angle a t th p ph') <= Rabs (cos ph - cos ph') + Rabs (sin ph - sin ph').
Proof.
  intros (A0 & A1 & A2). unfold cos_angle.
  replace (_ - _) with (sin t * sin th * ga1 a * cos p * (cos ph - cos ph') + sin t * sin th * ga2 a * sin p * (sin ph - sin ph')) by ring.
  assert (L : forall s1 s2 k c d, Rabs s1 <= 1 -> Rabs s2 <= 1 -> Rabs k <= 1 -> Rabs c <= 1 -> Rabs (s1 * s2 * k * c * d) <= Rabs d).
  { intros s1 s2 k c d H1 H2 H3 H4. rewrite !Rabs_mult. rewrite <- (Rmult_1_l (Rabs d)) at 2. apply Rmult_le_compat_r; [apply Rabs_pos|].
    assert (M : forall u v, 0 <= u <= 1 -> Rabs v <= 1 -> 0 <= u * Rabs v <= 1).
    { intros u v Hu Hv. pose proof (Rabs_pos v). split; [apply Rmult_le_pos; lra|]. replace 1 with (1 * 1) by ring. apply Rmult_le_compat; lra. }
    apply M; [|assumption]. apply M; [|assumption]. apply M; [|assumption]. split; [apply Rabs_pos|assumption]. }
  assert (Bs : forall x, Rabs (sin x) <= 1) by (intros; apply Rabs_le, SIN_bound). assert (Bc : forall x, Rabs (cos x) <= 1) by (intros; apply Rabs_le, COS_bound).
  eapply Rle_trans; [apply Rabs_triang|]. apply Rplus_le_compat; apply L; auto.
Qed.
Lemma uc_of_angle P a t p : cont_on P -> unit_g a -> uc (fun th ph => of_angle P a t th p ph).
Proof.
  intros C U eps He. destruct (cont_unif P C eps He) as (d & D & K). exists (d / 4). split; [lra|]. intros th th' ph ph' Ht Hp.
  unfold of_angle. left. apply K; try (now apply unit_angle).
  replace (_ - _) with ((cos_angle a t th p ph - cos_angle a t th' p ph) + (cos_angle a t th' p ph - cos_angle a t th' p ph')) by ring.
  eapply Rle_lt_trans; [apply Rabs_triang|].
  pose proof (cos_angle_lip2 a t th th' p ph U). pose proof (cos_angle_lip_ph a t th' p ph ph' U).
  pose proof (cos_lip th th'). pose proof (sin_lip th th'). pose proof (cos_lip ph ph'). pose proof (sin_lip ph ph'). lra.
Qed.
Lemma uc_ext v v' : (forall th ph, v th ph = v' th ph) -> uc v -> uc v'.
Proof. intros E H eps He. destruct (H eps He) as (d & D & K). exists d. split; [assumption|]. intros. rewrite <- !E. now apply K. Qed.
Lemma uc_const c : uc (fun _ _ => c).
Proof. intros eps He. exists 1. split; [lra|]. intros. rewrite Rminus_diag_eq, Rabs_R0 by reflexivity. lra. Qed.
Lemma uc_lin k v v' : uc v -> uc v' -> uc (fun th ph => k * v th ph + v' th ph).
Proof.
  intros C C' eps He. pose proof (Rabs_pos k) as Hk. set (e := eps / (Rabs k + 1)).
  assert (Pe : 0 < e) by (apply Rdiv_lt_0_compat; lra).
  destruct (C e Pe) as (d1 & D1 & K1). destruct (C' e Pe) as (d2 & D2 & K2). exists (Rmin d1 d2). split; [now apply Rmin_glb_lt|].
  intros th th' ph ph' Ht Hp. pose proof (Rmin_l d1 d2). pose proof (Rmin_r d1 d2).
  replace (_ - _) with (k * (v th ph - v th' ph') + (v' th ph - v' th' ph')) by ring.
  eapply Rle_trans; [apply Rabs_triang|]. rewrite Rabs_mult.
  apply Rle_trans with (Rabs k * e + e); [|right; unfold e; field; lra].
  apply Rplus_le_compat; [apply Rmult_le_compat_l; [assumption|]|]; [apply K1|apply K2]; lra.
Qed.
Lemma uc_sum {A} (w : A -> R) (v : A -> R -> R -> R) l : (forall c, In c l -> uc (v c)) ->
  uc (fun th ph => fold_right (fun c acc => w c * v c th ph + acc) 0 l).
Proof.
  induction l as [|c l IH]; intros H; [exact (uc_const 0)|]. cbn [fold_right].
  apply (uc_lin (w c) (v c) (fun th ph => fold_right (fun c acc => w c * v c th ph + acc) 0 l)); [apply H; left; reflexivity|].
  apply IH. intros d Hd. apply H. now right.
Qed.

(** ** The inner integral *)
Section Double.
  Context (b : R -> R -> R).
  Hypothesis (B : uc b).
  Lemma uc_cont th ph : continuous (fun ph => b th ph) ph.
  Proof.
    apply continuity_pt_filterlim. intros eps He. destruct (B (eps / 2) ltac:(lra)) as (d & D & K). exists d. split; [assumption|].
    intros y [_ Hy]. unfold dist in *. simpl in *. unfold R_dist in *.
    assert (Rabs (b th y - b th ph) <= eps / 2) by (apply K; [rewrite Rminus_diag_eq, Rabs_R0 by reflexivity; assumption|exact Hy]). lra.
  Qed.
  Lemma uc_int th : ex_RInt (fun ph => b th ph) 0 (2 * PI).
  Proof. apply (ex_RInt_continuous (V := R_CompleteNormedModule)). intros z _. apply uc_cont. Qed.
  Definition inner (th : R) : R := RInt (fun ph => b th ph) 0 (2 * PI).
  Lemma inner_cont th : continuity_pt inner th.
  Proof.
    pose proof PI_RGT_0 as HP. intros eps He. destruct (B (eps / (4 * PI)) ltac:(apply Rdiv_lt_0_compat; lra)) as (d & D & K). exists d. split; [assumption|].
    intros y [_ Hy]. unfold dist in *. simpl in *. unfold R_dist in *. unfold inner.
    assert (E : RInt (fun ph => b y ph) 0 (2 * PI) - RInt (fun ph => b th ph) 0 (2 * PI) = RInt (fun ph => b y ph - b th ph) 0 (2 * PI)).
    { symmetry. exact (RInt_minus (fun ph => b y ph) (fun ph => b th ph) _ _ (uc_int y) (uc_int th)). }
    rewrite E. eapply Rle_lt_trans.
    - apply (abs_RInt_le_const (fun ph => b y ph - b th ph) 0 (2 * PI) (eps / (4 * PI))); [lra| |].
      + exact (ex_RInt_minus (V := R_CompleteNormedModule) _ _ _ _ (uc_int y) (uc_int th)).
      + intros ph _. apply K; [exact Hy|]. rewrite Rminus_diag_eq, Rabs_R0 by reflexivity. assumption.
    - replace ((2 * PI - 0) * (eps / (4 * PI))) with (eps / 2) by (field; lra). lra.
  Qed.
  Definition outer (th : R) : R := inner th * cos th * sin th.
  Lemma outer_cont th : continuity_pt outer th.
  Proof.
    unfold outer. apply (continuity_pt_mult (fun t => inner t * cos t) sin); [|apply continuity_sin].
    apply (continuity_pt_mult inner cos); [apply inner_cont|apply continuity_cos].
  Qed.
  Lemma outer_int u v : ex_RInt outer u v.
  Proof. apply (ex_RInt_continuous (V := R_CompleteNormedModule)). intros z _. apply continuity_pt_filterlim, outer_cont. Qed.
  Lemma reflectance_exists : reflectance b (RInt outer 0 (PI / 2)).
  Proof. split; [apply uc_int|]. apply (RInt_correct (V := R_CompleteNormedModule)), outer_int. Qed.

  (** grids *)
  Definition gridpt (len : R) (N k : nat) : R := INR k * (len / INR (N - 1)).
  Definition double_simps (old : bool) (N : nat) : R :=
    simpsR old N (PI / 2 / INR (N - 1)) (fun k => simpsR old N (2 * PI / INR (N - 1)) (fun l =>
      sin (gridpt (PI / 2) N k) * cos (gridpt (PI / 2) N k) * b (gridpt (PI / 2) N k) (gridpt (2 * PI) N l))).
  Theorem double_simps_conv eps : 0 < eps -> exists N0, (2 <= N0)%nat /\ forall old N, (N0 <= N)%nat ->
    Rabs (double_simps old N - RInt outer 0 (PI / 2)) <= eps.
  Proof.
    intros He. pose proof PI_RGT_0 as HP. set (e1 := eps / (8 * PI * PI)). set (e2 := eps / (2 * PI)).
    assert (PP : 0 < PI * PI) by (apply Rmult_lt_0_compat; lra).
    assert (P1 : 0 < e1) by (apply Rdiv_lt_0_compat; lra). assert (P2 : 0 < e2) by (apply Rdiv_lt_0_compat; lra).
    destruct (B e1 P1) as (d1 & D1 & K1).
    destruct (Heine_cor2 (f := outer) (a := 0) (b := PI / 2) (fun x _ => outer_cont x) (mkposreal e2 P2)) as [d2 K2]. simpl in K2.
    pose proof (cond_pos d2) as D2. set (d := Rmin d1 d2). assert (D : 0 < d) by now apply Rmin_glb_lt.
    pose proof (Rmin_l d1 d2) as L1. pose proof (Rmin_r d1 d2) as L2. fold d in L1, L2.
    destruct (nfloor_ex (6 * PI / d) ltac:(left; apply Rdiv_lt_0_compat; lra)) as [n0 Hn0].
    exists (S (S (S n0))). split; [lia|]. intros old N HN. set (n := INR (N - 1)).
    assert (Hn : 6 * PI / d < n).
    { apply Rlt_le_trans with (INR n0 + 1); [apply Hn0|]. rewrite <- S_INR. apply le_INR. lia. }
    assert (Pn : 0 < n) by (eapply Rlt_trans; [|exact Hn]; apply Rdiv_lt_0_compat; lra).
    assert (Hs : 6 * PI / n < d).
    { apply Rmult_lt_reg_r with n; [assumption|]. unfold Rdiv. rewrite Rmult_assoc, Rinv_l, Rmult_1_r by lra.
      apply Rmult_lt_reg_r with (/ d); [now apply Rinv_0_lt_compat|]. rewrite (Rmult_comm d n), (Rmult_assoc n), Rinv_r, Rmult_1_r by lra. exact Hn. }
    assert (Hy : 3 * (2 * PI / n) < d) by (replace (3 * (2 * PI / n)) with (6 * PI / n) by (field; lra); assumption).
    assert (Hx : 3 * (PI / 2 / n) < d).
    { apply Rle_lt_trans with (6 * PI / n); [|assumption]. unfold Rdiv. rewrite <- (Rmult_assoc 3). apply Rmult_le_compat_r; [left; now apply Rinv_0_lt_compat|]. lra. }
    assert (Hpx : 0 < PI / 2 / n) by (apply Rdiv_lt_0_compat; lra). assert (Hpy : 0 < 2 * PI / n) by (apply Rdiv_lt_0_compat; lra).
    assert (Ex : INR (N - 1) * (PI / 2 / n) = PI / 2) by (fold n; field; lra). assert (Ey : INR (N - 1) * (2 * PI / n) = 2 * PI) by (fold n; field; lra).
    unfold double_simps. fold n.
    set (g := fun k => simpsR old N (2 * PI / n) (fun l => sin (gridpt (PI / 2) N k) * cos (gridpt (PI / 2) N k) * b (gridpt (PI / 2) N k) (gridpt (2 * PI) N l))).
    set (g' := fun k => outer (INR k * (PI / 2 / n))).
    assert (In : forall k, Rabs (g k - g' k) <= 4 * PI * e1).
    { intros k. unfold g, g', gridpt. fold n. set (th := INR k * (PI / 2 / n)).
      assert (If : ex_RInt (fun ph => sin th * cos th * b th ph) 0 (INR (N - 1) * (2 * PI / n))).
      { rewrite Ey. apply (ex_RInt_scal (V := R_CompleteNormedModule) (fun ph => b th ph) 0 (2 * PI) (sin th * cos th) (uc_int th)). }
      assert (V : forall x y, 0 <= x <= INR (N - 1) * (2 * PI / n) -> 0 <= y <= INR (N - 1) * (2 * PI / n) -> Rabs (x - y) <= 3 * (2 * PI / n) ->
        Rabs (sin th * cos th * b th x - sin th * cos th * b th y) <= e1).
      { intros x y _ _ Hxy. replace (_ - _) with (sin th * cos th * (b th x - b th y)) by ring. rewrite !Rabs_mult.
        assert (Rabs (b th x - b th y) <= e1) by (apply K1; [rewrite Rminus_diag_eq, Rabs_R0 by reflexivity; assumption|lra]).
        assert (A : Rabs (sin th) <= 1) by (apply Rabs_le, SIN_bound). assert (C : Rabs (cos th) <= 1) by (apply Rabs_le, COS_bound).
        pose proof (Rabs_pos (sin th)). pose proof (Rabs_pos (cos th)). pose proof (Rabs_pos (b th x - b th y)).
        replace e1 with (1 * e1) by ring. apply Rmult_le_compat; try assumption; [now apply Rmult_le_pos|]. replace 1 with (1 * 1) by ring. now apply Rmult_le_compat. }
      pose proof (simps_err (fun ph => sin th * cos th * b th ph) (2 * PI / n) N e1 ltac:(lra) ltac:(lia) If V old) as Q. rewrite Ey in Q.
      assert (Es : RInt (fun ph => sin th * cos th * b th ph) 0 (2 * PI) = outer th).
      { pose proof (RInt_scal (fun ph => b th ph) 0 (2 * PI) (sin th * cos th) (uc_int th)) as X. unfold outer, inner.
        eapply eq_trans; [exact X|]. change (Rmult (sin th * cos th) (RInt (fun ph => b th ph) 0 (2 * PI)) = RInt (fun ph => b th ph) 0 (2 * PI) * cos th * sin th).
        ring. }
      rewrite Es in Q. eapply Rle_trans; [exact Q|]. right. ring. }
    assert (Ou : Rabs (simpsR old N (PI / 2 / n) g' - RInt outer 0 (PI / 2)) <= PI * e2).
    { pose proof (simps_err outer (PI / 2 / n) N e2 ltac:(lra) ltac:(lia) (outer_int _ _)) as Q. rewrite Ex in Q.
      eapply Rle_trans; [apply Q|right; field].
      intros x y Hx' Hy' Hxy. left. apply K2; [exact Hx'|exact Hy'|]. lra. }
    replace (simpsR old N (PI / 2 / n) g - RInt outer 0 (PI / 2))
      with (simpsR old N (PI / 2 / n) (fun k => g k - g' k) + (simpsR old N (PI / 2 / n) g' - RInt outer 0 (PI / 2))) by (rewrite simps_minus; ring).
    eapply Rle_trans; [apply Rabs_triang|].
    pose proof (simps_bound old N (PI / 2 / n) (fun k => g k - g' k) (4 * PI * e1) ltac:(lia) ltac:(lra) (fun k _ => In k)) as Bd. rewrite Ex in Bd.
    apply Rle_trans with (2 * (PI / 2) * (4 * PI * e1) + PI * e2); [now apply Rplus_le_compat|]. right. unfold e1, e2. field. lra.
  Qed.
End Double.
Lemma reflectance_unique b p q : reflectance b p -> reflectance b q -> p = q.
Proof. intros [_ H1] [_ H2]. apply (is_RInt_unique (V := R_CompleteNormedModule)) in H1, H2. congruence. Qed.
