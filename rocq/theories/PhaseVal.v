(** The phase functions are the documented ones. *)
From Verif Require Export ExprFacts.
Open Scope nat_scope.
Open Scope string_scope.
Open Scope list_scope.

(** induction with the members of a LinComb *)
Section ScatInd.
  Context (P : scat -> Prop).
  Hypothesis (H1 : forall a, P (VIso a)) (H2 : forall a, P (VRay a)) (H3 : forall t n a, P (VHG t n a))
    (H4 : forall t n a, P (VHGRay t n a)) (H5 : forall a, P (SIso a)) (H6 : forall i n a, P (SCos i n a))
    (H7 : forall t n a, P (SHG t n a)) (H8 : forall t n a, P (SHGn t n a))
    (H9 : forall l a, Forall (fun c => P (snd c)) l -> P (LinComb l a)).
  Fixpoint scat_ind' (s : scat) : P s :=
    match s with
    | VIso a => H1 a | VRay a => H2 a | VHG t n a => H3 t n a | VHGRay t n a => H4 t n a | SIso a => H5 a
    | SCos i n a => H6 i n a | SHG t n a => H7 t n a | SHGn t n a => H8 t n a
    | LinComb l a => H9 l a ((fix go (l : list (expr * scat)) : Forall (fun c => P (snd c)) l :=
        match l with [] => Forall_nil _ | c :: l' => Forall_cons c (scat_ind' (snd c)) (go l') end) l)
    end.
End ScatInd.

Section Phase.
  Context (f : string -> R).
  Notation ev := (evalR f).
  (** documented value of a distribution function at the angles given by f *)
  Definition ang_of (a : atrip) : R := cos_angle (ev_a f a) (f "theta_0") (f "theta_ex") (f "phi_0") (f "phi_ex").
  Fixpoint phase_value (s : scat) : R :=
    match s with
    | VIso _ => p_isotropic
    | VRay a => p_rayleigh (ang_of a)
    | VHG t _ a => p_hg (ev t) (ang_of a)
    | VHGRay t _ a => p_hgrayleigh (ev t) (ang_of a)
    | SIso _ => b_isotropic
    | SCos i _ a => b_coslobe i (ang_of a)
    | SHG t _ a => b_hg (ev t) (ang_of a)
    | SHGn t _ a => b_hg_nadirnorm (ev t) (ev (a0 a)) (ang_of a)
    | LinComb choices _ => fold_right (fun c acc => (ev (fst c) * phase_value (snd c) + acc)%R) 0%R choices
    end.
  (** the values for which the documented formulas make sense *)
  Definition ok_a (a : atrip) : Prop := wd_a f a /\ (Rabs (ev (a0 a)) <= 1)%R /\ (Rabs (ev (a1 a)) <= 1)%R /\ (Rabs (ev (a2 a)) <= 1)%R.
  Definition ok_t (t : expr) : Prop := wd f t /\ (Rabs (ev t) < 1)%R.
  Fixpoint ok_scat (s : scat) : Prop :=
    match s with
    | VIso _ | SIso _ => True
    | VRay a | SCos _ _ a => wd_a f a
    | VHG t _ a | VHGRay t _ a | SHG t _ a => ok_t t /\ ok_a a
    | SHGn t _ a => ok_t t /\ ok_a a /\ ev t <> 0%R /\ ev (a0 a) <> 0%R
    | LinComb choices _ => fold_right (fun c acc => wd f (fst c) /\ ok_scat (snd c) /\ acc) True choices
    end.

  Ltac wdt := repeat match goal with
    | |- wd _ (eadd _ _) => apply wd_eadd | |- wd _ (emul _ _) => apply wd_emul | |- wd _ (esub _ _) => apply wd_esub
    | |- wd _ (epow _ _) => apply wd_epow | |- wd _ (ediv _ _) => apply wd_ediv
    | |- wd _ (ENum _) => exact I | |- wd _ EPi => exact I
    | |- wd _ (EDiv _ _) => split; [|split] | |- wd _ (EMul _ _) => split | |- wd _ (EP32 _) => split | |- wd _ (ESqrt _) => split
    | |- wd _ four_pi => split; exact I | |- _ => assumption end.

  Lemma ev_sang s : ev (scattering_angle_symbolic s) = ang_of (scat_a s).
  Proof. unfold scattering_angle_symbolic. rewrite ev_angle. reflexivity. Qed.
  Lemma wd_sang s : wd_a f (scat_a s) -> wd f (scattering_angle_symbolic s).
  Proof. intros H. unfold scattering_angle_symbolic. apply wd_angle; simpl; auto. Qed.
  Lemma ev_hg_den t x : ev (hg_den t x) = (1 + ev t ^ 2 - 2 * ev t * ev x)%R.
  Proof. unfold hg_den. rewrite ev_esub, ev_eadd, !ev_emul, ev_epow. cbn [evalR]. rewrite Q2R_1', Q2R_lit. field. Qed.
  Lemma wd_hg_den t x : wd f t -> wd f x -> wd f (hg_den t x).
  Proof. intros. unfold hg_den. wdt. Qed.
  Lemma ok_angle a : ok_a a -> (Rabs (ang_of a) <= 1)%R.
  Proof. intros (_ & H0 & H1 & H2). apply cos_angle_le; assumption. Qed.
  Lemma ok_den t a : ok_t t -> ok_a a -> (0 < 1 + ev t ^ 2 - 2 * ev t * ang_of a)%R.
  Proof. intros [_ Ht] Ha. apply hg_den_pos; [assumption|now apply ok_angle]. Qed.

  Ltac evs := unfold four_pi; repeat first [progress (rewrite ?ev_ediv, ?ev_emul, ?ev_esub, ?ev_eadd, ?ev_epow, ?ev_sang, ?ev_hg_den) | progress cbn [evalR scat_a]]; rewrite ?Q2R_1', ?Q2R_lit.
  Lemma ev_nadir t a : ev (nadir_hemreflect t a) = hg_nadir (ev t) (ev (a0 a)).
  Proof.
    unfold nadir_hemreflect, hg_nadir. evs.
    replace (4 / 1)%R with 4%R by field. replace (2 / 1)%R with 2%R by field. replace (-1 / 1)%R with (-1)%R by field.
    replace (-1 * ev t + ev (a0 a))%R with (- ev t + ev (a0 a))%R by ring. unfold Rdiv. ring.
  Qed.
  Lemma evp_VIso a : ev (phase_function (VIso a)) = p_isotropic.
  Proof. cbn [phase_function]. evs. unfold p_isotropic. f_equal. field. Qed.
  Lemma evp_VRay a : ev (phase_function (VRay a)) = p_rayleigh (ang_of a).
  Proof. pose proof PI_RGT_0 as HPI. cbn [phase_function]. evs. unfold p_rayleigh. f_equal. field. lra. Qed.
  Lemma evp_VHG t n a : ev (phase_function (VHG t n a)) = p_hg (ev t) (ang_of a).
  Proof.
    cbn [phase_function]. evs. unfold p_hg, hg, pow32. replace (4 / 1)%R with 4%R by field.
    set (d := (1 + ev t ^ 2 - 2 * ev t * ang_of a)%R). unfold Rdiv. rewrite !Rinv_mult. ring.
  Qed.
  Lemma evp_VHGRay t n a : ev (phase_function (VHGRay t n a)) = p_hgrayleigh (ev t) (ang_of a).
  Proof.
    pose proof PI_RGT_0 as HPI. cbn [phase_function]. evs. unfold p_hgrayleigh, hg, pow32. replace (3 / 1 / (8 / 1 * PI))%R with (3 / (8 * PI))%R by (field; lra).
    replace (2 / 1)%R with 2%R by field. unfold Rdiv. ring.
  Qed.
  Lemma evp_SIso a : ev (phase_function (SIso a)) = b_isotropic.
  Proof. pose proof PI_RGT_0 as HPI. cbn [phase_function]. evs. unfold b_isotropic. field. lra. Qed.
  Lemma coslobe_val (x : R) i : ((1 / PI) * (x * (1 + IZR (rsign x)) / (2 / 1)) ^ i)%R = b_coslobe i x.
  Proof.
    unfold b_coslobe.
    assert (E : (x * (1 + IZR (rsign x)) / (2 / 1))%R = if Rlt_dec 0 x then x else 0%R).
    { unfold rsign. destruct (Rlt_dec 0 x); [field|]. destruct (Rlt_dec x 0); [field|]. assert (H : x = 0%R) by lra. rewrite H. field. }
    rewrite E. unfold Rdiv. ring.
  Qed.
  Lemma evp_coslobe e i : ev (emul (EDiv (ENum 1) EPi) (epow (ediv (emul e (eadd (ENum 1) (ESign e))) (ENum 2)) i)) = b_coslobe i (ev e).
  Proof.
    rewrite ev_emul, ev_epow, ev_ediv, ev_emul, ev_eadd. rewrite <- coslobe_val. cbn [evalR]. rewrite Q2R_1', Q2R_lit. reflexivity.
  Qed.
  Lemma evp_SCos i n a : ev (phase_function (SCos i n a)) = b_coslobe i (ang_of a).
  Proof.
    cbn [phase_function]. rewrite evp_coslobe. rewrite ev_sang. reflexivity.
  Qed.
  Lemma evp_SHG t n a : ev (phase_function (SHG t n a)) = b_hg (ev t) (ang_of a).
  Proof.
    cbn [phase_function]. evs. unfold b_hg, hg, pow32. set (d := (1 + ev t ^ 2 - 2 * ev t * ang_of a)%R). unfold Rdiv. rewrite !Rinv_mult. ring.
  Qed.
  Lemma evp_SHGn t n a : ev (phase_function (SHGn t n a)) = b_hg_nadirnorm (ev t) (ev (a0 a)) (ang_of a).
  Proof.
    cbn [phase_function]. rewrite ev_emul, ev_ediv, ev_nadir. evs. unfold b_hg_nadirnorm, b_hg, hg, pow32. set (d := (1 + ev t ^ 2 - 2 * ev t * ang_of a)%R).
    unfold Rdiv. rewrite !Rinv_mult. ring.
  Qed.
  Lemma evp_LinComb l acc : Forall (fun c => ev (phase_function (snd c)) = phase_value (snd c)) l ->
        ev (fold_left (fun acc cw => eadd acc (emul (fst cw) (phase_function (snd cw)))) l acc) =
        (ev acc + fold_right (fun c acc => (ev (fst c) * phase_value (snd c) + acc)%R) 0%R l)%R.
  Proof. revert acc. induction l as [|c l IH]; intros acc F; cbn [fold_left fold_right]; [ring|]. inversion F; subst. rewrite IH by assumption. rewrite ev_eadd, ev_emul, H1. ring. Qed.
  Lemma ev_phase s : ev (phase_function s) = phase_value s.
  Proof.
    induction s using scat_ind'.
    - apply evp_VIso. - apply evp_VRay. - apply evp_VHG. - apply evp_VHGRay. - apply evp_SIso. - apply evp_SCos. - apply evp_SHG. - apply evp_SHGn.
    - cbn [phase_function phase_value]. rewrite evp_LinComb by assumption. cbn [evalR]. rewrite Q2R_0'. ring.
  Qed.
  Lemma nadir_sqrt_ne t a : (Rabs t < 1)%R -> (Rabs a <= 1)%R -> t <> 0%R -> a <> 0%R ->
    (1 - t * (- t + a) - sqrt ((1 + t ^ 2 - 2 * a * t) * (1 + t ^ 2)) <> 0)%R.
  Proof.
    intros Ht Ha Nt Na E.
    pose proof (hg_den_pos t a Ht Ha) as D. replace (2 * t * a)%R with (2 * a * t)%R in D by ring.
    assert (P : (0 < 1 + t ^ 2)%R) by (pose proof (pow2_ge_0 t); lra).
    assert (X : sqrt ((1 + t ^ 2 - 2 * a * t) * (1 + t ^ 2)) = (1 + t ^ 2 - t * a)%R) by lra.
    assert (Y : ((1 + t ^ 2 - 2 * a * t) * (1 + t ^ 2) = (1 + t ^ 2 - t * a) * (1 + t ^ 2 - t * a))%R).
    { rewrite <- X at 1 2. symmetry. apply sqrt_sqrt. left. now apply Rmult_lt_0_compat. }
    assert (Z : ((t * a) * (t * a) = 0)%R) by lra. apply Rmult_integral in Z. destruct Z as [Z|Z]; apply Rmult_integral in Z; tauto.
  Qed.
  Lemma hg_nadir_ne t a : (Rabs t < 1)%R -> (Rabs a <= 1)%R -> t <> 0%R -> a <> 0%R -> hg_nadir t a <> 0%R.
  Proof.
    intros Ht Ha Nt Na. unfold hg_nadir. pose proof (nadir_sqrt_ne t a Ht Ha Nt Na) as N.
    pose proof (hg_den_pos t a Ht Ha) as D. replace (2 * t * a)%R with (2 * a * t)%R in D by ring.
    pose proof (sqrt_lt_R0 _ D).
    assert ((1 - t ^ 2 <> 0)%R). { assert ((t ^ 2 < 1)%R); [|lra]. apply Rabs_def2 in Ht. nra. }
    apply Rmult_integral_contrapositive_currified.
    - repeat apply Rmult_integral_contrapositive_currified; try assumption; lra.
    - apply Rinv_neq_0_compat. repeat apply Rmult_integral_contrapositive_currified; try lra; auto using pow_nonzero.
  Qed.
  Lemma wd_nadir t a : ok_t t -> ok_a a -> ev t <> 0%R -> ev (a0 a) <> 0%R -> wd f (nadir_hemreflect t a).
  Proof.
    intros [Wt Ht] (Wa & Ha & _) Nt Na. destruct Wa as (Wa & _ & _). unfold nadir_hemreflect.
    pose proof (hg_den_pos _ _ Ht Ha) as D. replace (2 * ev t * ev (a0 a))%R with (2 * ev (a0 a) * ev t)%R in D by ring.
    pose proof (sqrt_lt_R0 _ D) as Ds. assert (P : (0 < 1 + ev t ^ 2)%R) by (pose proof (pow2_ge_0 (ev t)); lra).
    wdt; evs; replace (2 / 1)%R with 2%R by field.
    - left. now apply Rmult_lt_0_compat.
    - lra.
    - repeat apply Rmult_integral_contrapositive_currified; try lra; auto using pow_nonzero.
  Qed.
  Lemma wd_coslobe e i : wd f e -> wd f (emul (EDiv (ENum 1) EPi) (epow (ediv (emul e (eadd (ENum 1) (ESign e))) (ENum 2)) i)).
  Proof.
    intros W. apply wd_emul; [split; [exact I|split; [exact I|cbn [evalR]; pose proof PI_RGT_0; lra]]|]. apply wd_epow. apply wd_ediv.
    - apply wd_emul; [exact W|]. apply wd_eadd; [exact I|exact W].
    - exact I.
    - cbn [evalR]. rewrite Q2R_lit. lra.
  Qed.
  Lemma wd_phase s : ok_scat s -> wd f (phase_function s).
  Proof.
    pose proof PI_RGT_0 as HPI.
    induction s using scat_ind'; cbn [phase_function ok_scat]; intros O.
    - wdt. evs. lra.
    - wdt; [evs; lra|]. now apply wd_sang.
    - destruct O as [Ot Oa]. pose proof (ok_den _ _ Ot Oa) as D. pose proof (proj1 Ot). pose proof (wd_sang (VHG t n a) (proj1 Oa)).
      wdt; [now apply wd_hg_den|evs; lra|]. evs. fold (pow32 (1 + ev t ^ 2 - 2 * ev t * ang_of a)). pose proof (pow32_pos _ D).
      apply Rmult_integral_contrapositive_currified; lra.
    - destruct O as [Ot Oa]. pose proof (ok_den _ _ Ot Oa) as D. pose proof (proj1 Ot). pose proof (wd_sang (VHGRay t n a) (proj1 Oa)).
      wdt; try (evs; lra); try (now apply wd_hg_den).
      + evs. pose proof (pow2_ge_0 (ev t)). lra.
      + evs. fold (pow32 (1 + ev t ^ 2 - 2 * ev t * ang_of a)). pose proof (pow32_pos _ D). lra.
    - wdt. evs. lra.
    - apply wd_coslobe. exact (wd_sang (SCos i n a) O).
    - destruct O as [Ot Oa]. pose proof (ok_den _ _ Ot Oa) as D. pose proof (proj1 Ot). pose proof (wd_sang (SHG t n a) (proj1 Oa)).
      wdt; [now apply wd_hg_den|evs; lra|]. evs. fold (pow32 (1 + ev t ^ 2 - 2 * ev t * ang_of a)). pose proof (pow32_pos _ D).
      apply Rmult_integral_contrapositive_currified; lra.
    - destruct O as (Ot & Oa & Nt & Na). pose proof (ok_den _ _ Ot Oa) as D. pose proof (proj1 Ot). pose proof (wd_sang (SHGn t n a) (proj1 Oa)).
      pose proof (wd_nadir t a Ot Oa Nt Na).
      wdt; [rewrite ev_nadir; apply hg_nadir_ne; try assumption; [apply Ot|apply Oa]|now apply wd_hg_den|evs; lra|].
      evs. fold (pow32 (1 + ev t ^ 2 - 2 * ev t * ang_of a)). pose proof (pow32_pos _ D).
      apply Rmult_integral_contrapositive_currified; lra.
    - assert (G : forall l acc, Forall (fun c => ok_scat (snd c) -> wd f (phase_function (snd c))) l ->
        fold_right (fun c acc => wd f (fst c) /\ ok_scat (snd c) /\ acc) True l -> wd f acc ->
        wd f (fold_left (fun acc cw => eadd acc (emul (fst cw) (phase_function (snd cw)))) l acc)).
      { clear. induction l as [|c l IH]; intros acc F O W; simpl in *; [assumption|]. inversion F; subst. destruct O as (O1 & O2 & O3).
        apply IH; auto. wdt. auto. }
      apply G; auto. exact I.
  Qed.
End Phase.
