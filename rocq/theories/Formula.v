(** The direct contributions as documented real-valued formulas. *)
From Verif Require Export Affine Spec.
Open Scope nat_scope.

(** [at_point w o i x t]: at position [i], what one reads from object [o] in state [w] are the
    real numbers of the sample [x] (its tau being [t]) *)
Definition at_point (w : world) (o : nat) (i : list nat) (x : point) : Prop :=
  (forall a, obs_I0 w o a -> bget a i = Fin (p_I0 x)) /\
  (forall a, obs_angle w o T0 a -> bget a i = Fin (p_t0 x)) /\
  (forall a, obs_angle w o TEx a -> bget a i = Fin (p_tex x)) /\
  (forall a, obs_param w o Tau a -> bget a i = Fin (p_tau x)) /\
  (forall a, obs_param w o Omega a -> bget a i = Fin (p_omega x)) /\
  (forall a, obs_param w o NormBRDF a -> bget a i = Fin (p_norm x)) /\
  (forall a, obs_param w o Bsf a -> bget a i = Fin (p_bsfr x)) /\
  (forall a, obs_scat w o WV a -> bget a i = Fin (p_vol x)) /\
  (forall a, obs_scat w o WSRF a -> bget a i = Fin (p_brdf x)).
(** a value in the units of the result *)
Definition in_units (dB : bool) (r : R) : xr :=
  if dB then if Rlt_dec 0 r then Fin (10 * (ln r / ln 10))%R else if Rlt_dec r 0 then NaN else NInf else Fin r.

Lemma x_atten_val x : (cos (p_t0 x) <> 0)%R -> (cos (p_tex x) <> 0)%R ->
  x_atten (Fin (p_tau x)) (Fin (cos (p_t0 x))) (Fin (cos (p_tex x))) = Fin (attenuation x).
Proof.
  intros H1 H2. unfold x_atten, attenuation. rewrite !xdiv_Fin by assumption. simpl. f_equal. f_equal. field. auto.
Qed.
Lemma x_surface_val x : (cos (p_t0 x) <> 0)%R -> (cos (p_tex x) <> 0)%R ->
  x_surface (Fin (p_I0 x)) (Fin (cos (p_t0 x))) (Fin (cos (p_tex x))) (Fin (p_brdf x)) (Fin (p_tau x)) (Fin (p_norm x)) (Fin (p_bsfr x))
  = Fin (surface_value x).
Proof.
  intros H1 H2. unfold x_surface, x_mix. rewrite x_atten_val by assumption. simpl. f_equal. unfold surface_value. ring.
Qed.
Lemma x_volume_val x : (cos (p_t0 x) <> 0)%R -> (cos (p_tex x) <> 0)%R -> (cos (p_t0 x) + cos (p_tex x) <> 0)%R ->
  x_volume (Fin (p_I0 x)) (Fin (p_omega x)) (Fin (cos (p_t0 x))) (Fin (cos (p_tex x))) (Fin (p_tau x)) (Fin (p_vol x)) (Fin (p_bsfr x))
  = Fin (volume_value x).
Proof.
  intros H1 H2 H3. unfold x_volume, x_vol. rewrite x_atten_val by assumption. cbn [xmul xadd]. rewrite xdiv_Fin by assumption.
  simpl. f_equal. unfold volume_value. field. assumption.
Qed.
Lemma in_units_conv sg db x r : (sg = true -> p_I0 x <> 0%R) ->
  x_convert sg db (Fin (p_I0 x)) (Fin (cos (p_t0 x))) (Fin r) = in_units db (r * unit_factor sg x)%R.
Proof.
  intros H.
  assert (K : xmul (Fin r) (cfac sg (Fin (p_I0 x)) (Fin (cos (p_t0 x)))) = Fin (r * unit_factor sg x)).
  { unfold cfac, unit_factor. destruct sg; [|reflexivity]. simpl xmul at 2. rewrite xdiv_Fin by auto. simpl. reflexivity. }
  unfold in_units. destruct db.
  - rewrite x_convert_dB, K. set (u := (r * unit_factor sg x)%R). pose proof ln10_pos. destruct (Rlt_dec 0 u).
    + rewrite xlog10_Fin by assumption. reflexivity.
    + destruct (Rlt_dec u 0).
      * unfold xlog10, xlog. destruct (Rlt_dec 0 u); [lra|]. destruct (Rlt_dec u 0); [reflexivity|lra].
      * replace u with 0%R by lra. rewrite xlog10_0. simpl. rewrite rsign_pos by lra. reflexivity.
  - rewrite x_convert_lin, K. reflexivity.
Qed.
Lemma attenuation_0 x : p_tau x = 0%R -> attenuation x = 1%R.
Proof. intros H. unfold attenuation. rewrite H. rewrite <- exp_0. f_equal. unfold Rdiv. ring. Qed.

Section DirectValues.
  Context (w : world) (q : op) (o : nat) (C : config) (fe : res (option compiled)).
  Hypothesis (G : good w q).
  Hypothesis (Hc : at_conf w o C fe).
  Context (i : list nat) (x : point).
  Hypothesis (P : at_point w o i x).
  Hypothesis (H0 : (0 < cos (p_t0 x))%R).
  Hypothesis (H1 : (0 < cos (p_tex x))%R).

  Lemma el_mu0 mu0 : p_mu0 C = Ok mu0 -> bget mu0 i = Fin (cos (p_t0 x)).
  Proof.
    intros H. destruct (mu0_read _ _ H) as (t & Ht). rewrite (mu0_el _ _ _ i Ht H).
    destruct P as (_ & P2 & _). rewrite (P2 t); [reflexivity|]. eapply c_angle; eassumption.
  Qed.
  Lemma el_muex mu0 : p_muex C = Ok mu0 -> bget mu0 i = Fin (cos (p_tex x)).
  Proof.
    intros H. destruct (muex_read _ _ H) as (t & Ht). rewrite (muex_el _ _ _ i Ht H).
    destruct P as (_ & _ & P2 & _). rewrite (P2 t); [reflexivity|]. eapply c_angle; eassumption.
  Qed.
  Lemma el_I0 a : c_I0 C = Ok a -> bget a i = Fin (p_I0 x).
  Proof. intros H. apply P. eapply c_I0_obs; eassumption. Qed.
  Lemma el_param p a : p_val C p = Ok a ->
    bget a i = Fin (match p with Tau => p_tau x | Omega => p_omega x | NormBRDF => p_norm x | Bsf => p_bsfr x end).
  Proof.
    intros H. eapply (c_param w q o C fe G Hc) in H. destruct P as (_ & _ & _ & P1 & P2 & P3 & P4 & _). destruct p; auto.
  Qed.
  Lemma el_scat p a : p_scat C p = Ok a -> bget a i = Fin (match p with WV => p_vol x | WSRF => p_brdf x end).
  Proof. intros H. eapply (c_scat w q o C fe G Hc) in H. destruct P as (_ & _ & _ & _ & _ & _ & _ & P1 & P2). destruct p; auto. Qed.
  Lemma surface_el s : p_surface C = Ok s -> bget s i = Fin (surface_value x).
  Proof.
    intros H. destruct (p_surface_inv _ _ H) as (j0 & m0 & e0 & t0 & f0 & n0 & bb0 & (I1 & I2 & I3 & I4) & I5 & I6 & I7 & K0).
    rewrite (k_surface_el _ _ _ _ _ _ _ _ _ K0), (el_I0 _ I1), (el_mu0 _ I2), (el_muex _ I3), (el_param _ _ I4), (el_scat _ _ I5),
      (el_param _ _ I6), (el_param _ _ I7). apply x_surface_val; lra.
  Qed.
  Lemma volume_el s : p_volume C = Ok s -> bget s i = Fin (volume_value x).
  Proof.
    intros H. destruct (p_volume_inv _ _ H) as (j0 & m0 & e0 & t0 & f0 & n0 & bb0 & (I1 & I2 & I3 & I4) & I5 & I6 & I7 & K0).
    rewrite (k_volume_el _ _ _ _ _ _ _ _ _ K0), (el_I0 _ I1), (el_mu0 _ I2), (el_muex _ I3), (el_param _ _ I4), (el_scat _ _ I5),
      (el_param _ _ I6), (el_param _ _ I7). apply x_volume_val; lra.
  Qed.
  Context (sg : bool) (Fsg : c_sig0 C = sg) (Hi0 : sg = true -> p_I0 x <> 0%R) (Ht : (0 <= p_tau x)%R).
  Lemma calc_direct a : p_calc C fe = Ok a -> valid_idx (shp (row a 0)) i ->
    get (row a 1) i = in_units (c_dB C) (surface_value x * unit_factor sg x) /\
    get (row a 2) i = in_units (c_dB C) (volume_value x * unit_factor sg x) /\
    (c_intQ C = true -> p_tau x = 0%R -> (forall t, p_eval C Tau <> Ok (t, false)) ->
       get (row a 3) i = in_units (c_dB C) 0).
  Proof.
    intros H. destruct (p_calc_rows _ _ _ H) as (tau & b & isurf & i0 & mu0 & ivol & iint & Et & Es & Ei & Em & Bi & Bm & Sv & Hv & Hi & Sa & Hget).
    rewrite (row_shp _ _ _ 0 Sa). intros V. destruct (Hget i V) as (G1 & G2 & G3 & _). cbn [row get].
    rewrite Fsg in *. rewrite (el_I0 _ Ei), (el_mu0 _ Em) in *.
    pose proof (el_param _ _ (p_val_eval _ _ _ _ Et)) as Etau. cbn beta iota in Etau.
    assert (Off : off C tau b = true -> p_tau x = 0%R).
    { unfold off. destruct b; [|discriminate]. cbn [andb].
      assert (St : shp tau = []) by (destruct Hc as (r & _ & -> & _); eapply p_eval_num; eassumption).
      unfold bget in Etau. rewrite St in Etau. replace (proj [] i) with (@nil nat) in Etau by (destruct i; reflexivity). rewrite Etau. simpl.
      destruct (Rlt_dec 0 (p_tau x)); [discriminate|]. intros _. lra. }
    split; [|split].
    - rewrite G1. rewrite <- (bget_valid isurf), (surface_el _ Es) by assumption. now apply in_units_conv.
    - rewrite G2. destruct (off C tau b).
      + subst ivol. cbn [zeros_like get]. rewrite in_units_conv by assumption. f_equal. f_equal.
        unfold volume_value. rewrite (attenuation_0 x (Off eq_refl)). ring.
      + rewrite <- (bget_valid ivol), (volume_el _ Hv) by congruence. now apply in_units_conv.
    - intros Q Z N. rewrite (G3 Q). destruct (Hi Q) as [_ X].
      assert (O : off C tau b = true).
      { unfold off. destruct b; [|exfalso; now apply (N tau)]. cbn [andb].
        assert (St : shp tau = []) by (destruct Hc as (r & _ & -> & _); eapply p_eval_num; eassumption).
        unfold bget in Etau. rewrite St in Etau. replace (proj [] i) with (@nil nat) in Etau by (destruct i; reflexivity). rewrite Etau. simpl.
        destruct (Rlt_dec 0 (p_tau x)); [lra|reflexivity]. }
      rewrite O in X. subst iint. cbn [zeros_like get]. rewrite in_units_conv by assumption. f_equal. ring.
  Qed.
  (** the interaction row where bsf = 1 *)
  Lemma calc_interaction_bare a : p_calc C fe = Ok a -> valid_idx (shp (row a 0)) i -> c_intQ C = true -> p_bsfr x = 1%R ->
    get (row a 3) i = in_units (c_dB C) 0 \/ get (row a 3) i = NaN.
  Proof.
    intros H. destruct (p_calc_rows _ _ _ H) as (tau & b & isurf & i0 & mu0 & ivol & iint & Et & Es & Ei & Em & Bi & Bm & Sv & Hv & Hi & Sa & Hget).
    rewrite (row_shp _ _ _ 0 Sa). intros V Q B. destruct (Hget i V) as (_ & _ & G3 & _). cbn [row get].
    rewrite Fsg in *. rewrite (el_I0 _ Ei), (el_mu0 _ Em) in *. rewrite (G3 Q). destruct (Hi Q) as [Si X].
    assert (Z : x_convert sg (c_dB C) (Fin (p_I0 x)) (Fin (cos (p_t0 x))) (Fin 0%R) = in_units (c_dB C) 0).
    { rewrite in_units_conv by assumption. f_equal. ring. }
    assert (N : x_convert sg (c_dB C) (Fin (p_I0 x)) (Fin (cos (p_t0 x))) NaN = NaN) by (unfold x_convert; destruct (c_dB C); reflexivity).
    assert (R : forall y, p_interaction C fe = Ok y -> shp y = shp isurf -> get y i = Fin 0%R \/ get y i = NaN).
    { intros y Ey Sy. destruct (p_interaction_inv _ _ _ Ey) as (j0 & m0 & e0 & t0 & o0 & n0 & bb0 & f0 & g0 & _ & _ & _ & _ & _ & I9 & K0).
      rewrite <- (bget_valid y) by congruence. rewrite (k_interaction_el _ _ _ _ _ _ _ _ _ _ _ K0), x_interaction_lin.
      rewrite (el_param _ _ I9). cbn beta iota. rewrite B, xsub_Fin, Rminus_eq_0. destruct (x_irest _ _ _ _ _ _ _ _); simpl; rewrite ?rsign_0; auto.
      left. f_equal. ring. }
    assert (D : get iint i = Fin 0%R \/ get iint i = NaN).
    { destruct (off C tau b); [subst iint; left; reflexivity|]. destruct b; [now apply R|]. destruct X as (y & Ey & Fy).
      destruct (k_fix_nan_spec _ _ _ Fy) as [Sf Hf]. assert (Sy : shp y = shp isurf) by congruence.
      destruct (Hf i) as [->|(_ & -> & _)]; [congruence|now apply R|auto]. }
    destruct D as [-> | ->]; [left; exact Z|right; exact N].
  Qed.
End DirectValues.
