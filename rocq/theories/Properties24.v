(** The interaction contribution converges to the documented first-order interaction term: C66. *)
From Coquelicot Require Import Coquelicot.
From Coq Require Import Lia Lra List.
From Verif Require Import ExpInt AzInt LegFacts LegSeries LegSeries2 Trunc.
From Verif Require Import SpecScat SpecExp SpecInt.
From Verif Require Import Wit4 Properties6 Validity.
From Verif Require Export Properties8.
Open Scope string_scope.
Open Scope list_scope.
Open Scope R_scope.

(** ** Vocabulary *)
(** the distribution function of [s] itself (no expansion), at numbers for the angles and for its parameters *)
Definition distribution (f : string -> R) (s : scat) (t0 tex p0 pex : R) : R := evalR (dirs f t0 tex p0 pex) (phase_function s).
(** [s'] is [s] with every given ncoefs replaced by some number of at least [N] *)
Inductive finer (N : nat) : scat -> scat -> Prop :=
| finer_viso a : finer N (VIso a) (VIso a)
| finer_vray a : finer N (VRay a) (VRay a)
| finer_vhg t nc n a : (N <= n)%nat -> finer N (VHG t nc a) (VHG t (Some n) a)
| finer_vhgray t nc n a : (N <= n)%nat -> finer N (VHGRay t nc a) (VHGRay t (Some n) a)
| finer_siso a : finer N (SIso a) (SIso a)
| finer_scos i nc n a : (N <= n)%nat -> finer N (SCos i nc a) (SCos i (Some n) a)
| finer_shg t nc n a : (N <= n)%nat -> finer N (SHG t nc a) (SHG t (Some n) a)
| finer_shgn t nc n a : (N <= n)%nat -> finer N (SHGn t nc a) (SHGn t (Some n) a)
| finer_lin cs cs' a : Forall2 (fun c c' => fst c = fst c' /\ finer N (snd c) (snd c')) cs cs' -> finer N (LinComb cs a) (LinComb cs' a).
(** Isotropic, Rayleigh, HenyeyGreenstein (|t| < 1), HGRayleigh, HG_nadirnorm (t, a[0] <> 0), with the
    generalization parameters in [-1, 1]; combinations of them with any weights *)
Definition smooth1 (f : string -> R) (s : scat) : Prop :=
  unit_a f (scat_a s) /\
  match s with
  | VIso _ | VRay _ | SIso _ => True
  | VHG t _ _ | VHGRay t _ _ | SHG t _ _ => Rabs (evalR f t) < 1
  | SHGn t _ a => 0 < Rabs (evalR f t) < 1 /\ evalR f (a0 a) <> 0
  | _ => False
  end.
Definition smooth (f : string -> R) (s : scat) : Prop :=
  match s with LinComb cs _ => Forall (fun c => smooth1 f (snd c)) cs | _ => smooth1 f s end.

(** ** One member *)
Lemma cont_on_edc P : (forall x, -1 <= x <= 1 -> ex_derive P x) -> cont_on P.
Proof. intros H x Hx. apply continuity_pt_filterlim. apply (ex_derive_continuous P). now apply H. Qed.
Lemma hg_cont t : Rabs t < 1 -> cont_on (hg t).
Proof.
  intros Ht. apply cont_on_edc. intros x Hx. unfold hg, pow32.
  pose proof (hg_den_pos t x Ht (Rabs_le _ _ Hx)) as D. pose proof (sqrt_lt_R0 _ D).
  auto_derive. split; [lra|]. split; [|exact I]. intros E. apply Rmult_integral in E.
  replace (1 + t * (t * 1) + - (2 * t * x)) with (1 + t ^ 2 - 2 * t * x) in E by ring. lra.
Qed.
Lemma cont_on_mul P Q : cont_on P -> cont_on Q -> cont_on (fun x => P x * Q x).
Proof. intros A B x Hx. apply (continuity_pt_mult P Q); auto. Qed.
Lemma cont_on_const c : cont_on (fun _ => c).
Proof. intros x _. apply continuity_pt_const. intros u v. reflexivity. Qed.
Lemma leg_series_stop c m n x : (forall k, (m <= k)%nat -> c k = 0) -> (m <= n)%nat -> leg_series c n x = leg_series c m x.
Proof.
  intros Z H. induction H as [|n H IH]; [reflexivity|]. cbn [leg_series]. rewrite IH, Z by assumption. ring.
Qed.
Lemma zero_le x eps : x = 0 -> 0 < eps -> Rabs x <= eps.
Proof. intros -> H. rewrite Rabs_R0. lra. Qed.
Lemma lim_small u eps : is_lim_seq u 0 -> 0 < eps -> exists N, forall n, (N <= n)%nat -> Rabs (u n) < eps.
Proof.
  intros L He. apply is_lim_seq_spec in L. destruct (L (mkposreal eps He)) as [N HN]. exists N. intros n Hn. specialize (HN n Hn). simpl in HN. now rewrite Rminus_0_r in HN.
Qed.
(** the distribution function and how its expansion approaches it *)
Lemma member f s : smooth1 f s -> exists P, cont_on P /\ unit_g (ev_a f (scat_a s)) /\
  (no_angles s -> forall t0 tex p0 pex, distribution f s t0 tex p0 pex = of_angle P (ev_a f (scat_a s)) t0 tex p0 pex) /\
  forall eps, 0 < eps -> exists N, forall s' n, finer N s s' -> (nc_of s' <= n)%nat ->
    scat_a s' = scat_a s /\ forall x, Rabs x <= 1 -> Rabs (leg_series (coef_value f s') n x - P x) <= eps.
Proof.
  intros [U Sm]. pose proof PI_RGT_0 as HP. pose proof U as (U0 & U1 & U2).
  assert (UG : unit_g (ev_a f (scat_a s))) by (split; [|split]; assumption).
  assert (D : forall P, (forall t0 tex p0 pex, (forall x, In x (a_syms (scat_a s)) -> ~ In x angle_syms) -> no_angles s ->
      phase_value (dirs f t0 tex p0 pex) s = P (ang_of (dirs f t0 tex p0 pex) (scat_a s))) -> (exists cs a, s = LinComb cs a) \/
      (no_angles s -> forall t0 tex p0 pex, distribution f s t0 tex p0 pex = of_angle P (ev_a f (scat_a s)) t0 tex p0 pex)).
  { intros P HPv. destruct s as [a|a|t nc a|t nc a|a|i nc a|t nc a|t nc a|cs a]; [right|right|right|right|right|right|right|right|left; eauto];
      intros N t0 tex p0 pex; unfold distribution, of_angle; rewrite ev_phase;
      (assert (Q : forall x, In x (a_syms a) -> ~ In x angle_syms) by (intros x Hx; apply N; cbn [scat_syms]; first [exact Hx|apply in_or_app; right; exact Hx]));
      rewrite HPv by (cbn [scat_a]; assumption); cbn [scat_a]; now rewrite dirs_ang. }
  assert (Pt : forall t, (forall x, In x (syms t) -> In x (scat_syms s)) -> no_angles s -> forall t0 tex p0 pex, evalR (dirs f t0 tex p0 pex) t = evalR f t).
  { intros t Ht N t0 tex p0 pex. apply dirs_param. intros x Hx. now apply N, Ht. }
  destruct s as [a|a|t nc a|t nc a|a|i nc a|t nc a|t nc a|cs a]; try contradiction; cbn [scat_a] in *.
  - exists (fun _ => p_isotropic). split; [apply cont_on_const|]. split; [assumption|]. split.
    + destruct (D (fun _ => p_isotropic)) as [(? & ? & X)|R]; [reflexivity|discriminate X|exact R].
    + intros eps He. exists 0%nat. intros s' n F Hn. inversion F; subst. split; [reflexivity|]. intros x _. cbn [coef_value].
      rewrite (leg_series_stop _ 1 n); [| |exact Hn].
      * cbn [leg_series coef_value]. rewrite legP_0. unfold c_isotropic, p_isotropic, delta. cbn [Nat.eqb]. apply zero_le; [|exact He]. simpl INR. field. lra.
      * intros k Hk. cbn [coef_value]. unfold c_isotropic, delta. destruct k; [lia|]. simpl. ring.
  - exists p_rayleigh. split; [apply cont_on_edc; intros x _; unfold p_rayleigh; auto_derive; exact I|]. split; [assumption|]. split.
    + destruct (D p_rayleigh) as [(? & ? & X)|R]; [reflexivity|discriminate X|exact R].
    + intros eps He. exists 0%nat. intros s' n F Hn. inversion F; subst. split; [reflexivity|]. intros x _. cbn [coef_value].
      rewrite (leg_series_stop _ 3 n); [| |exact Hn].
      * cbn [leg_series coef_value]. rewrite legP_SS, legP_1, legP_0. unfold c_rayleigh, p_rayleigh, delta. cbn [Nat.eqb]. apply zero_le; [|exact He]. simpl INR. field. lra.
      * intros k Hk. cbn [coef_value]. unfold c_rayleigh, delta. destruct k as [|[|[|k]]]; try lia. simpl. ring.
  - exists (p_hg (evalR f t)). split; [apply (cont_on_mul (hg (evalR f t)) (fun _ => / (4 * PI))); [now apply hg_cont|apply cont_on_const]|]. split; [assumption|]. split.
    + destruct (D (p_hg (evalR f t))) as [(? & ? & X)|R]; [|discriminate X|exact R].
      intros t0 tex p0 pex Qa N. cbn [phase_value scat_a]. rewrite (Pt t); [reflexivity| |assumption]. intros x Hx. cbn [scat_syms]. apply in_or_app. auto.
    + intros eps He. destruct (lim_small _ (eps * (4 * PI)) (hg_tail_lim _ Sm)) as [N HN]; [apply Rmult_lt_0_compat; lra|].
      exists N. intros s' n F Hn. inversion F as [| |? ? m ? Hm| | | | | |]; subst. split; [reflexivity|]. intros x Hx. cbn [coef_value].
      change (nc_of (VHG t (Some m) a)) with m in Hn. pose proof (hg_error (evalR f t) x n Sm Hx) as E. specialize (HN n ltac:(lia)).
      rewrite (leg_series_scale _ (hg_coef (evalR f t)) (1 / (4 * PI))) by (intros j; cbn [coef_value]; unfold c_hg, hg_coef; ring).
      unfold p_hg. replace (1 / (4 * PI) * leg_series (hg_coef (evalR f t)) n x - hg (evalR f t) x / (4 * PI))
        with (- ((hg (evalR f t) x - leg_series (hg_coef (evalR f t)) n x) / (4 * PI))) by (field; lra).
      rewrite Rabs_Ropp, Rabs_div, (Rabs_pos_eq (4 * PI)) by lra. apply Rle_div_l; [lra|].
      eapply Rle_trans; [exact E|]. eapply Rle_trans; [apply Rle_abs|]. lra.
  - set (K := 3 / (8 * PI) * (1 / (2 + evalR f t ^ 2))).
    assert (PK : 0 < K). { pose proof (pow2_ge_0 (evalR f t)). unfold K. apply Rmult_lt_0_compat; apply Rdiv_lt_0_compat; lra. }
    exists (p_hgrayleigh (evalR f t)). split.
    { unfold p_hgrayleigh. apply (cont_on_mul (fun x => 3 / (8 * PI) * (1 / (2 + evalR f t ^ 2)) * (1 + x ^ 2)) (hg (evalR f t))); [|now apply hg_cont].
      apply cont_on_edc. intros x _. fold K. auto_derive. exact I. }
    split; [assumption|]. split.
    + destruct (D (p_hgrayleigh (evalR f t))) as [(? & ? & X)|R]; [|discriminate X|exact R].
      intros t0 tex p0 pex Qa N. cbn [phase_value scat_a]. rewrite (Pt t); [reflexivity| |assumption]. intros x Hx. cbn [scat_syms]. apply in_or_app. auto.
    + intros eps He. destruct (lim_small _ (eps / K) (hgr_tail_lim _ Sm)) as [N HN]; [now apply Rdiv_lt_0_compat|].
      exists (S (S N)). intros s' n F Hn. inversion F as [| | |? ? m ? Hm| | | | |]; subst. split; [reflexivity|]. intros x Hx. cbn [coef_value].
      change (nc_of (VHGRay t (Some m) a)) with m in Hn. destruct n as [|[|n]]; try lia. pose proof (hgr_error (evalR f t) x n Sm Hx) as E. specialize (HN n ltac:(lia)).
      rewrite (leg_series_scale _ (hgr_coef (evalR f t)) K) by (intros j; cbn [coef_value]; apply c_hgr_val).
      unfold p_hgrayleigh. fold K.
      replace (K * leg_series (hgr_coef (evalR f t)) (S (S n)) x - K * (1 + x ^ 2) * hg (evalR f t) x)
        with (- (K * ((1 + x ^ 2) * hg (evalR f t) x - leg_series (hgr_coef (evalR f t)) (S (S n)) x))) by ring.
      rewrite Rabs_Ropp, Rabs_mult, (Rabs_pos_eq K) by lra. apply Rle_trans with (K * (eps / K)); [|right; field; lra].
      apply Rmult_le_compat_l; [lra|]. eapply Rle_trans; [exact E|]. eapply Rle_trans; [apply Rle_abs|]. lra.
  - exists (fun _ => b_isotropic). split; [apply cont_on_const|]. split; [assumption|]. split.
    + destruct (D (fun _ => b_isotropic)) as [(? & ? & X)|R]; [reflexivity|discriminate X|exact R].
    + intros eps He. exists 0%nat. intros s' n F Hn. inversion F; subst. split; [reflexivity|]. intros x _. cbn [coef_value].
      rewrite (leg_series_stop _ 1 n); [| |exact Hn].
      * cbn [leg_series coef_value]. rewrite legP_0. unfold c_lambert, b_isotropic, delta. cbn [Nat.eqb]. apply zero_le; [|exact He]. simpl INR. field. lra.
      * intros k Hk. cbn [coef_value]. unfold c_lambert, delta. destruct k; [lia|]. simpl. ring.
  - exists (b_hg (evalR f t)). split; [apply (cont_on_mul (hg (evalR f t)) (fun _ => / PI)); [now apply hg_cont|apply cont_on_const]|]. split; [assumption|]. split.
    + destruct (D (b_hg (evalR f t))) as [(? & ? & X)|R]; [|discriminate X|exact R].
      intros t0 tex p0 pex Qa N. cbn [phase_value scat_a]. rewrite (Pt t); [reflexivity| |assumption]. intros x Hx. cbn [scat_syms]. apply in_or_app. auto.
    + intros eps He. destruct (lim_small _ (eps * PI) (hg_tail_lim _ Sm)) as [N HN]; [apply Rmult_lt_0_compat; lra|].
      exists N. intros s' n F Hn. inversion F as [| | | | | |? ? m ? Hm| |]; subst. split; [reflexivity|]. intros x Hx. cbn [coef_value].
      change (nc_of (SHG t (Some m) a)) with m in Hn. pose proof (hg_error (evalR f t) x n Sm Hx) as E. specialize (HN n ltac:(lia)).
      rewrite (leg_series_scale _ (hg_coef (evalR f t)) (1 / PI)) by (intros j; cbn [coef_value]; unfold c_bhg, hg_coef; ring).
      unfold b_hg. replace (1 / PI * leg_series (hg_coef (evalR f t)) n x - hg (evalR f t) x / PI)
        with (- ((hg (evalR f t) x - leg_series (hg_coef (evalR f t)) n x) / PI)) by (field; lra).
      rewrite Rabs_Ropp, Rabs_div, (Rabs_pos_eq PI) by lra. apply Rle_div_l; [lra|].
      eapply Rle_trans; [exact E|]. eapply Rle_trans; [apply Rle_abs|]. lra.
  - destruct Sm as [Ht Na]. set (K := hg_nadir (evalR f t) (evalR f (a0 a))).
    assert (PN : 0 < K) by (apply hg_nadir_pos; [assumption|split; [now apply Rabs_pos_lt|assumption]]).
    assert (PP : 0 < PI * K) by (apply Rmult_lt_0_compat; lra).
    exists (b_hg_nadirnorm (evalR f t) (evalR f (a0 a))). split.
    { unfold b_hg_nadirnorm. apply (cont_on_mul (fun _ => 1 / hg_nadir (evalR f t) (evalR f (a0 a))) (b_hg (evalR f t))); [apply cont_on_const|].
      apply (cont_on_mul (hg (evalR f t)) (fun _ => / PI)); [now apply hg_cont|apply cont_on_const]. }
    split; [assumption|]. split.
    + destruct (D (b_hg_nadirnorm (evalR f t) (evalR f (a0 a)))) as [(? & ? & X)|R]; [|discriminate X|exact R].
      intros t0 tex p0 pex Qa N. cbn [phase_value scat_a].
      rewrite (Pt t), (Pt (a0 a)); [reflexivity| | | |]; try assumption; intros x Hx; cbn [scat_syms]; apply in_or_app; [right; unfold a_syms; apply in_or_app; auto|auto].
    + intros eps He. destruct (lim_small _ (eps * (PI * K)) (hg_tail_lim _ (proj2 Ht))) as [N HN]; [now apply Rmult_lt_0_compat|].
      exists N. intros s' n F Hn. inversion F as [| | | | | | |? ? m ? Hm|]; subst. split; [reflexivity|]. intros x Hx. cbn [coef_value].
      change (nc_of (SHGn t (Some m) a)) with m in Hn. pose proof (hg_error (evalR f t) x n (proj2 Ht) Hx) as E. specialize (HN n ltac:(lia)).
      rewrite (leg_series_scale _ (hg_coef (evalR f t)) (1 / (PI * K))) by (intros j; cbn [coef_value]; unfold c_bhgn, c_bhg, hg_coef; fold K; field; lra).
      unfold b_hg_nadirnorm, b_hg. fold K. replace (1 / (PI * K) * leg_series (hg_coef (evalR f t)) n x - 1 / K * (hg (evalR f t) x / PI))
        with (- ((hg (evalR f t) x - leg_series (hg_coef (evalR f t)) n x) / (PI * K))) by (field; lra).
      rewrite Rabs_Ropp, Rabs_div, (Rabs_pos_eq (PI * K)) by lra. apply Rle_div_l; [lra|].
      eapply Rle_trans; [exact E|]. eapply Rle_trans; [apply Rle_abs|]. lra.
Qed.

(** ** Whole functions *)
Lemma nice_sum {A} (w : A -> R) (v : A -> R -> R -> R) l : (forall c, In c l -> nice (v c)) ->
  nice (fun th ph => fold_right (fun c acc => w c * v c th ph + acc) 0 l).
Proof.
  induction l as [|c l IH]; intros H; [exact (nice_const 0)|]. cbn [fold_right].
  apply (nice_lin (w c) (v c) (fun th ph => fold_right (fun c acc => w c * v c th ph + acc) 0 l)); [apply H; left; reflexivity|].
  apply IH. intros d Hd. apply H. now right.
Qed.
Lemma dist_lin f cs a t0 tex p0 pex : no_angles (LinComb cs a) ->
  distribution f (LinComb cs a) t0 tex p0 pex = fold_right (fun c acc => evalR f (fst c) * distribution f (snd c) t0 tex p0 pex + acc) 0 cs.
Proof.
  intros N. unfold distribution. rewrite ev_phase. cbn [phase_value].
  assert (W : forall c, In c cs -> evalR (dirs f t0 tex p0 pex) (fst c) = evalR f (fst c)).
  { intros c Hc. apply dirs_param. intros x Hx. apply N. cbn [scat_syms]. apply in_flat_map. exists c. split; [assumption|]. apply in_or_app. auto. }
  clear N. induction cs as [|c cs IH]; [reflexivity|]. cbn [fold_right]. rewrite IH by (intros d Hd; apply W; now right).
  rewrite W by (left; reflexivity). now rewrite ev_phase.
Qed.
Lemma mem_no_angles cs a c : no_angles (LinComb cs a) -> In c cs -> no_angles (snd c).
Proof. intros N Hc x Hx. apply N. cbn [scat_syms]. apply in_flat_map. exists c. split; [assumption|]. apply in_or_app. auto. Qed.
Lemma dist_nice f s : no_angles s -> smooth f s ->
  (forall t p, nice (fun th ph => distribution f s t th p ph)) /\ (forall t p, nice (fun th ph => distribution f s th t ph p)).
Proof.
  assert (M : forall s, no_angles s -> smooth1 f s -> (forall t p, nice (fun th ph => distribution f s t th p ph)) /\ (forall t p, nice (fun th ph => distribution f s th t ph p))).
  { intros s0 N Sm. destruct (member f s0 Sm) as (P & C & U & E & _). specialize (E N). split; intros t p.
    - eapply nice_ext; [intros th ph; symmetry; apply E|]. now apply nice_fst.
    - eapply nice_ext; [intros th ph; symmetry; apply E|]. now apply nice_snd. }
  intros N Sm. destruct s as [| | | | | | | |cs a]; try (now apply M).
  cbn [smooth] in Sm. rewrite Forall_forall in Sm. split; intros t p.
  - eapply nice_ext; [intros th ph; symmetry; now apply dist_lin|]. apply (nice_sum (fun c => evalR f (fst c)) (fun c th ph => distribution f (snd c) t th p ph)).
    intros c Hc. apply M; [now apply (mem_no_angles cs a)|now apply Sm].
  - eapply nice_ext; [intros th ph; symmetry; now apply dist_lin|]. apply (nice_sum (fun c => evalR f (fst c)) (fun c th ph => distribution f (snd c) th t ph p)).
    intros c Hc. apply M; [now apply (mem_no_angles cs a)|now apply Sm].
Qed.
Lemma finer_mono N N' s s' : (N <= N')%nat -> finer N' s s' -> finer N s s'.
Proof.
  intros H. revert s'. induction s as [a|a|t nc a|t nc a|a|i nc a|t nc a|t nc a|cs a IH] using scat_ind'; intros s' F; inversion F; subst; constructor; try lia.
  match goal with X : Forall2 _ _ _ |- _ => rename X into Fa end. clear F.
  induction Fa as [|c c' l l' [E1 E2] _ IHF]; constructor; inversion IH; subst; auto.
Qed.
Lemma group_ge cs c : In c cs -> (nc_of (snd c) <= group_nc cs (scat_a (snd c)))%nat.
Proof.
  intros Hc. unfold group_nc. apply list_max_in. apply in_map_iff. exists c. split; [reflexivity|]. apply filter_In. split; [assumption|].
  unfold same_a. apply atrip_refl.
Qed.
(** the truncated expansions approach the distribution function, uniformly in the directions *)
Lemma expansion_close f s eps : no_angles s -> smooth f s -> 0 < eps -> exists N, forall s', finer N s s' ->
  forall t0 tex p0 pex, Rabs (expansion_value f s' t0 tex p0 pex - distribution f s t0 tex p0 pex) <= eps.
Proof.
  intros NA Sm He.
  assert (M : forall s eps, no_angles s -> smooth1 f s -> 0 < eps -> exists N, forall s' n, finer N s s' -> (nc_of s' <= n)%nat ->
    forall t0 tex p0 pex, Rabs (leg_series (coef_value f s') n (cos_angle (ev_a f (scat_a s')) t0 tex p0 pex) - distribution f s t0 tex p0 pex) <= eps).
  { clear s eps NA Sm He. intros s eps NA Sm He. destruct (member f s Sm) as (P & C & U & E & K). destruct (K eps He) as [N HN]. exists N.
    intros s' n F Hn t0 tex p0 pex. destruct (HN s' n F Hn) as [Ea Hx]. rewrite (E NA), Ea. unfold of_angle. apply Hx.
    apply Rabs_le. now apply unit_angle. }
  assert (B : smooth1 f s -> (forall cs a, s <> LinComb cs a) -> exists N, forall s', finer N s s' ->
    forall t0 tex p0 pex, Rabs (expansion_value f s' t0 tex p0 pex - distribution f s t0 tex p0 pex) <= eps).
  { intros S1 B. destruct (M s eps NA S1 He) as [N HN]. exists N. intros s' F t0 tex p0 pex. specialize (HN s' (nc_of s') F (le_n _) t0 tex p0 pex).
    destruct s' as [| | | | | | | |cs' a']; try exact HN. inversion F; subst. destruct (B cs a' eq_refl). }
  destruct s as [| | | | | | | |cs a]; try (apply B; [assumption|discriminate]). clear B.
  assert (L : forall cs eps, (forall c, In c cs -> no_angles (snd c) /\ smooth1 f (snd c)) -> 0 < eps -> exists N, forall cs' (g : wchoice -> nat),
    Forall2 (fun c c' => fst c = fst c' /\ finer N (snd c) (snd c')) cs cs' -> (forall c', In c' cs' -> (nc_of (snd c') <= g c')%nat) ->
    forall t0 tex p0 pex, Rabs (wsum (fun c => evalR f (fst c) * leg_series (coef_value f (snd c)) (g c) (cos_angle (ev_a f (scat_a (snd c))) t0 tex p0 pex)) cs'
      - fold_right (fun c acc => evalR f (fst c) * distribution f (snd c) t0 tex p0 pex + acc) 0 cs) <= eps).
  { clear cs a eps NA Sm He. intros cs. induction cs as [|c cs IH]; intros eps H He.
    - exists 0%nat. intros cs' g F _ t0 tex p0 pex. inversion F; subst. simpl. apply zero_le; [ring|assumption].
    - set (k := Rabs (evalR f (fst c))). pose proof (Rabs_pos (evalR f (fst c)) : 0 <= k) as Hk.
      destruct (H c (or_introl eq_refl)) as [Nc Sc].
      assert (P1 : 0 < eps / 2 / (k + 1)) by (apply Rdiv_lt_0_compat; lra).
      destruct (M (snd c) _ Nc Sc P1) as [N1 H1]. destruct (IH (eps / 2) (fun d Hd => H d (or_intror Hd)) ltac:(lra)) as [N2 H2].
      exists (Nat.max N1 N2). intros cs' g F Hg t0 tex p0 pex. inversion F as [|? c' ? l' [E1 E2] F']; subst. cbn [wsum fold_right].
      assert (F2 : Forall2 (fun c c' => fst c = fst c' /\ finer N2 (snd c) (snd c')) cs l').
      { clear - F'. induction F' as [|? ? ? ? [X Y] _ I]; constructor; [split; [exact X|eapply finer_mono; [|exact Y]; lia]|assumption]. }
      specialize (H2 l' g F2 (fun d Hd => Hg d (or_intror Hd)) t0 tex p0 pex).
      specialize (H1 (snd c') (g c') (finer_mono _ _ _ _ (Nat.le_max_l _ _) E2) (Hg c' (or_introl eq_refl)) t0 tex p0 pex).
      rewrite <- E1. unfold wsum in H2.
      match goal with |- Rabs (?u * ?x + ?y - (_ * ?z + ?t)) <= _ => replace (u * x + y - (u * z + t)) with (u * (x - z) + (y - t)) by ring end.
      eapply Rle_trans; [apply Rabs_triang|]. rewrite Rabs_mult. fold k.
      assert (k * (eps / 2 / (k + 1)) <= eps / 2).
      { apply Rle_trans with ((k + 1) * (eps / 2 / (k + 1))); [apply Rmult_le_compat_r; lra|right; field; lra]. }
      assert (X := Rmult_le_compat_l k _ _ Hk H1). lra. }
  cbn [smooth] in Sm. rewrite Forall_forall in Sm.
  destruct (L cs eps (fun c Hc => conj (mem_no_angles cs a c NA Hc) (Sm c Hc)) He) as [N HN]. exists N.
  intros s' F t0 tex p0 pex. inversion F as [| | | | | | | |? cs' ? Fa]; subst. rewrite dist_lin by assumption. cbn [expansion_value].
  apply (HN cs' (fun c => group_nc cs' (scat_a (snd c))) Fa). intros c' Hc. now apply group_ge.
Qed.

(** ** The integral *)
Lemma F_limit f V SRF tau t0 p0 tex pex : no_angles V -> no_angles SRF -> smooth f V -> smooth f SRF -> 0 < cos t0 < 1 -> 0 < tau ->
  exists E, is_Fint (distribution f V) (distribution f SRF) tau t0 p0 tex pex E /\
    forall eps, 0 < eps -> exists N, forall V' SRF' F, finer N V V' -> finer N SRF SRF' ->
      is_Fint (expansion_value f V') (expansion_value f SRF') tau t0 p0 tex pex F -> Rabs (F - E) <= eps.
Proof.
  intros NV NS SV SS C0 Ht. pose proof PI_RGT_0 as HP. pose proof (Rinv_0_lt_compat _ Ht) as Q.
  pose proof (proj1 (dist_nice f V NV SV) (PI - t0) p0) as N1. pose proof (proj2 (dist_nice f SRF NS SS) tex pex) as N2.
  destruct (exact_F _ _ N1 N2 (cos t0) tau C0 Ht) as [E HE]. exists E. split; [exact HE|]. intros eps He.
  destruct N1 as (_ & (M1 & P1 & B1) & _). destruct N2 as (_ & (M2 & P2 & B2) & _).
  set (e := Rmin 1 (eps / (/ tau * (2 * PI) * (M1 + M2 + 1)))).
  assert (PK : 0 < / tau * (2 * PI) * (M1 + M2 + 1)) by (apply Rmult_lt_0_compat; [apply Rmult_lt_0_compat|]; lra).
  assert (Pe : 0 < e) by (apply Rmin_glb_lt; [lra|now apply Rdiv_lt_0_compat]).
  destruct (expansion_close f V e NV SV Pe) as [NV' HV]. destruct (expansion_close f SRF e NS SS Pe) as [NS' HS]. exists (Nat.max NV' NS').
  intros V' SRF' F FV FS HF.
  specialize (HV V' (finer_mono _ _ _ _ (Nat.le_max_l _ _) FV)). specialize (HS SRF' (finer_mono _ _ _ _ (Nat.le_max_r _ _) FS)).
  eapply Rle_trans; [apply (F_close (cos t0) tau (fun th ph => expansion_value f V' (PI - t0) th p0 ph) (fun th ph => expansion_value f SRF' th tex ph pex)
    (fun th ph => distribution f V (PI - t0) th p0 ph) (fun th ph => distribution f SRF th tex ph pex) F E ((M1 + M2 + 1) * e) (proj1 C0) Ht)|].
  - intros th ph. apply Rle_trans with ((M1 + e) * e + M2 * e).
    + apply prod_close; [|apply B2|apply HV|apply HS].
      replace (expansion_value f V' (PI - t0) th p0 ph) with ((expansion_value f V' (PI - t0) th p0 ph - distribution f V (PI - t0) th p0 ph) + distribution f V (PI - t0) th p0 ph) by ring.
      eapply Rle_trans; [apply Rabs_triang|]. specialize (HV (PI - t0) th p0 ph). specialize (B1 th ph). lra.
    + assert (e <= 1) by apply Rmin_l. clearbody e. nra.
  - exact HF.
  - exact HE.
  - apply Rle_trans with (/ tau * (2 * PI) * (M1 + M2 + 1) * (eps / (/ tau * (2 * PI) * (M1 + M2 + 1)))).
    + replace (/ tau * (2 * PI * ((M1 + M2 + 1) * e))) with (/ tau * (2 * PI) * (M1 + M2 + 1) * e) by ring. apply Rmult_le_compat_l; [lra|apply Rmin_r].
    + right. set (k := / tau * (2 * PI) * (M1 + M2 + 1)) in *. clearbody k. field. lra.
Qed.

(** *** C66.  With growing ncoefs the interaction contribution converges to the documented first-order
    interaction term, evaluated with the distribution functions themselves. *)
Theorem C66_interaction_converges : forall x f V SRF sg,
  no_angles V -> no_angles SRF -> smooth f V -> smooth f SRF ->
  0 < cos (p_t0 x) < 1 -> 0 < cos (p_tex x) < 1 -> 0 < p_tau x ->
  exists E1 E2,
    is_Fint (distribution f V) (distribution f SRF) (p_tau x) (p_t0 x) (f "phi_0") (p_tex x) (f "phi_ex") E1 /\
    is_Fint (distribution f V) (distribution f SRF) (p_tau x) (p_tex x) (f "phi_ex") (p_t0 x) (f "phi_0") E2 /\
    forall eps, 0 < eps -> exists N, forall V' SRF' w p o i y iq, finer N V V' -> finer N SRF SRF' ->
      let w' := fst (step w p) in
      tidy w p -> returns_interaction w p o i y ->
      obs_flags w' o iq sg false -> obs_mode w' o true -> sample w' o i x f V' SRF' -> (sg = true -> p_I0 x <> 0) ->
      exists v, y = Fin v /\ Rabs (v - interaction_value x E1 E2 * unit_factor sg x) <= eps.
Proof.
  intros x f V SRF sg NV NS SV SS C0 C1 Tp.
  destruct (F_limit f V SRF (p_tau x) (p_t0 x) (f "phi_0") (p_tex x) (f "phi_ex") NV NS SV SS C0 Tp) as (E1 & I1 & L1).
  destruct (F_limit f V SRF (p_tau x) (p_tex x) (f "phi_ex") (p_t0 x) (f "phi_0") NV NS SV SS C1 Tp) as (E2 & I2 & L2).
  exists E1, E2. split; [exact I1|]. split; [exact I2|]. intros eps He.
  set (K := Rabs (p_norm x * (1 - p_bsfr x) * (p_I0 x * cos (p_t0 x) * p_omega x) * unit_factor sg x)).
  assert (HK : 0 <= K) by apply Rabs_pos. set (e := eps / (2 * (K + 1))). assert (Pe : 0 < e) by (apply Rdiv_lt_0_compat; lra).
  destruct (L1 e Pe) as [N1 H1]. destruct (L2 e Pe) as [N2 H2]. exists (Nat.max N1 N2).
  intros V' SRF' w p o i y iq FV FS w' T Y Fl Mo Sa Hi0.
  destruct (C49_monostatic_interaction_exact w p o i y iq sg false x f V' SRF' T Y Fl Mo Sa Hi0) as (F1 & F2 & Ey & J1 & J2).
  specialize (H1 V' SRF' F1 (finer_mono _ _ _ _ (Nat.le_max_l _ _) FV) (finer_mono _ _ _ _ (Nat.le_max_l _ _) FS) J1).
  specialize (H2 V' SRF' F2 (finer_mono _ _ _ _ (Nat.le_max_r _ _) FV) (finer_mono _ _ _ _ (Nat.le_max_r _ _) FS) J2).
  exists (interaction_value x F1 F2 * unit_factor sg x). split; [exact Ey|].
  assert (EX : forall c, 0 < c -> 0 < exp (- p_tau x / c) <= 1).
  { intros c Hc. split; [apply exp_pos|]. left. replace 1 with (exp 0) by apply exp_0. apply exp_increasing. unfold Rdiv. pose proof (Rinv_0_lt_compat _ Hc). nra. }
  pose proof (EX _ (proj1 C0)) as X0. pose proof (EX _ (proj1 C1)) as X1.
  set (u := exp (- p_tau x / cos (p_tex x))) in *. set (v := exp (- p_tau x / cos (p_t0 x))) in *.
  replace (interaction_value x F1 F2 * unit_factor sg x - interaction_value x E1 E2 * unit_factor sg x)
    with (p_norm x * (1 - p_bsfr x) * (p_I0 x * cos (p_t0 x) * p_omega x) * unit_factor sg x * (u * (F1 - E1) + v * (F2 - E2)))
    by (unfold interaction_value, u, v; ring).
  rewrite Rabs_mult. fold K. apply Rle_trans with (K * (2 * e)).
  - apply Rmult_le_compat_l; [assumption|]. eapply Rle_trans; [apply Rabs_triang|]. rewrite !Rabs_mult, !(Rabs_pos_eq u), !(Rabs_pos_eq v) by lra.
    pose proof (Rabs_pos (F1 - E1)). pose proof (Rabs_pos (F2 - E2)). nra.
  - apply Rle_trans with ((K + 1) * (2 * e)); [apply Rmult_le_compat_r; lra|]. right. unfold e. field. lra.
Qed.
Print Assumptions C66_interaction_converges.

(** HenyeyGreenstein volume and surface with t = 1/4, incidence angles (1/2, 1), optical depths (1/2, 1), 2
    coefficients: the second sample of calc() meets the hypotheses *)
Example C66_nonvacuous :
  let f := fC Mono 1 1 0 0 in let x := xC Mono 1 1 0 0 in let w := wC Mono 1 1 0 0 in let p := OCalc 0 nil in
  let V := VHG (ESym "t") None a_vol in let SRF := SHG (ESym "t") None a_srf in
  no_angles V /\ no_angles SRF /\ smooth f V /\ smooth f SRF /\ 0 < cos (p_t0 x) < 1 /\ 0 < cos (p_tex x) < 1 /\ 0 < p_tau x /\
  finer 2 V VC /\ finer 2 SRF SC /\ tidy w p /\ (exists y, returns_interaction w p 0 (1%nat :: nil) y) /\
  obs_flags (fst (step w p)) 0 true false false /\ obs_mode (fst (step w p)) 0 true /\ sample (fst (step w p)) 0 (1%nat :: nil) x f VC SC.
Proof.
  cbn zeta. pose proof cos1_lt as C1.
  assert (NA : no_angles (VHG (ESym "t") None a_vol) /\ no_angles (SHG (ESym "t") None a_srf)).
  { split; intros x H; simpl in H; destruct H as [<-|[]]; intros X; repeat (destruct X as [X|X]; [discriminate X|]); exact X. }
  split; [apply NA|]. split; [apply NA|]. clear NA.
  assert (U : forall a, a = a_vol \/ a = a_srf -> unit_a (fC Mono 1 1 0 0) a).
  { intros a [-> | ->]; unfold unit_a, a_vol, a_srf; cbn [a0 a1 a2 evalR]; rewrite ?Q2R_1', ?Q2R_Z; (split; [|split]); apply Rabs_le; lra. }
  assert (Ht : Rabs (evalR (fC Mono 1 1 0 0) (ESym "t")) < 1) by (change (Rabs (1 / 4) < 1); apply Rabs_def1; lra).
  split; [split; [apply U; auto|exact Ht]|]. split; [split; [apply U; auto|exact Ht]|].
  split; [exact C1|]. split; [exact C1|]. split; [unfold xC; cbn [p_tau]; lra|].
  split; [constructor; lia|]. split; [constructor; lia|].
  destruct (wC_calc Mono 1 1 0 0 cos1_lt cos1_lt) as (y1 & y2 & y3 & H).
  pose proof (calc_at_returns _ _ _ _ _ _ _ _ _ _ _ _ _ _ H) as R. destruct H as (a & T & E & Fl & M & Vi & S & _ & _ & I0 & _).
  split; [exact T|]. split; [exists y3; exact R|]. split; [exact Fl|]. split; [exact M|exact S].
Qed.
