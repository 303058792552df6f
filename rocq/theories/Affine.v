(** Dependence on the bare-soil fraction. *)
From Verif Require Export Scale.
Open Scope nat_scope.

Definition T2 (u v : xr) : Prop := True.
Notation RT := (rrel (nrel T2)).
Lemma T2_shp a b : shp a = shp b -> nrel T2 a b. Proof. intros H. split; [exact H|]. intros; exact I. Qed.
Lemma map2T f a a' b b' : nrel T2 a a' -> nrel T2 b b' -> RT (map2 f a b) (map2 f a' b').
Proof. intros H H'. apply (map2_rel T2 T2 T2); auto. Qed.
Lemma nT (a : nd xr) : nrel T2 a a. Proof. now apply T2_shp. Qed.

Ltac tb := eapply rrel_bind; [apply map2T; first [eassumption|apply nT]|intros ? ? _ _ ?].
Ltac te := apply rrel_eq_bind; intros ? _.
Ltac tl := apply map2T; first [eassumption|apply nT].
Lemma k_surface_T i0 mu0 muex srf tau norm bsf bsf' : shp bsf = shp bsf' ->
  RT (k_surface i0 mu0 muex srf tau norm bsf) (k_surface i0 mu0 muex srf tau norm bsf').
Proof.
  intros H. apply T2_shp in H. unfold k_surface, k_mix. te. te. te.
  eapply (rrel_bind (nrel T2)). { unfold nsub, nmul, nadd. tb. tb. tb. tl. }
  intros ? ? _ _ ?. unfold nmul. tl.
Qed.
Lemma k_volume_T i0 om mu0 muex tau v bsf bsf' : shp bsf = shp bsf' ->
  RT (k_volume i0 om mu0 muex tau v bsf) (k_volume i0 om mu0 muex tau v bsf').
Proof. intros H. apply T2_shp in H. unfold k_volume. te. unfold nsub, nmul. tb. tl. Qed.
Lemma k_interaction_T i0 mu0 muex om tau norm bsf bsf' f1 f2 : shp bsf = shp bsf' ->
  RT (k_interaction i0 mu0 muex om tau norm bsf f1 f2) (k_interaction i0 mu0 muex om tau norm bsf' f1 f2).
Proof. intros H. apply T2_shp in H. unfold k_interaction. do 8 te. unfold nsub, nmul. tb. tb. tl. Qed.
Lemma k_rows_T a a' b b' c c' : nrel T2 a a' -> nrel T2 b b' ->
  match c, c' with Some u, Some v => nrel T2 u v | None, None => True | _, _ => False end ->
  RT (k_rows a b c) (k_rows a' b' c').
Proof.
  intros Ha Hb Hc. unfold k_rows, nadd. tb. destruct c as [c|], c' as [c'|]; try tauto.
  - tb. apply stack_rel. repeat (constructor; [assumption|]). constructor.
  - apply stack_rel. repeat (constructor; [assumption|]). constructor.
Qed.
Lemma k_convert_T sg db i0 mu0 v v' : nrel T2 v v' -> RT (k_convert sg db i0 mu0 v) (k_convert sg db i0 mu0 v').
Proof.
  intros H. unfold k_convert. te. unfold nmul. tb. destruct db; [|assumption].
  apply map2T; [apply nT|]. apply (map1_rel T2 T2); [assumption|]. intros; exact I.
Qed.
Lemma k_fix_nan_T ii ii' tau : nrel T2 ii ii' -> ble (shp tau) (shp ii) -> RT (k_fix_nan ii tau) (k_fix_nan ii' tau).
Proof.
  intros [H _] B.
  assert (X : forall i, ble (shp tau) (shp i) -> exists r, k_fix_nan i tau = Ok r).
  { intros i Bi. unfold k_fix_nan. destruct (nd_any _); [|eauto].
    destruct (map2_eq Bool.eqb (map1 xis_nan i) (map1 xis_zero tau) Bi) as (c & -> & _). cbn [rbind].
    destruct (nd_all c); eauto. }
  destruct (X ii B) as (r & Er). destruct (X ii') as (r' & Er'); [congruence|]. rewrite Er, Er'. simpl.
  apply T2_shp. apply k_fix_nan_spec in Er, Er'. destruct Er as [-> _], Er' as [-> _]. exact H.
Qed.

Section Bsf.
  Context (C : config) (fe : res (option compiled)).
  (** R.bsf = b *)
  Definition bsf_at (b : R) : config := with_defc C Bsf (CVal (Ok (num b)) true).
  Ltac sf := match goal with |- rrel _ (rbind ?u _) (rbind ?v _) => change v with u; apply rrel_eq_bind; intros ? ?E end.
  Context (b b' : R).
  Notation X := (bsf_at b). Notation Y := (bsf_at b').
  Lemma p_bsf : forall b, p_val (bsf_at b) Bsf = Ok (num b). Proof. reflexivity. Qed.
  Lemma p_surface_T : RT (p_surface X) (p_surface Y).
  Proof. unfold p_surface. do 6 sf. rewrite !p_bsf. cbn [rbind]. now apply k_surface_T. Qed.
  Lemma p_volume_T : RT (p_volume X) (p_volume Y).
  Proof. unfold p_volume. do 6 sf. rewrite !p_bsf. cbn [rbind]. now apply k_volume_T. Qed.
  Lemma p_interaction_T : RT (p_interaction X fe) (p_interaction Y fe).
  Proof. unfold p_interaction. do 8 sf. rewrite !p_bsf. cbn [rbind]. now apply k_interaction_T. Qed.
  Definition part_T (p q : nd xr * nd xr * option (nd xr)) : Prop :=
    nrel T2 (fst (fst p)) (fst (fst q)) /\ nrel T2 (snd (fst p)) (snd (fst q)) /\
    match snd p, snd q with Some u, Some v => nrel T2 u v | None, None => True | _, _ => False end.
  Lemma p_parts_T : rrel part_T (p_parts X fe) (p_parts Y fe).
  Proof.
    unfold p_parts. sf. destruct a as [tau n]. destruct n.
    - eapply rrel_bind; [apply p_surface_T|]. intros s s' _ _ Hs. destruct (xgt0 _).
      + eapply rrel_bind; [apply p_volume_T|]. intros v v' _ _ Hv.
        eapply (rrel_bind (nrel T2)).
        * cbn [c_intQ bsf_at with_defc]. destruct (c_intQ C); [apply p_interaction_T|]. simpl. apply nT.
        * intros u u' _ _ Hu. split; [exact Hs|]. split; [exact Hv|exact Hu].
      + split; [exact Hs|]. split; [apply T2_shp; apply Hs|apply T2_shp; apply Hs].
    - eapply rrel_bind; [apply p_surface_T|]. intros s s' _ _ Hs.
      eapply rrel_bind; [apply p_volume_T|]. intros v v' _ _ Hv.
      cbn [c_intQ bsf_at with_defc]. destruct (c_intQ C).
      + eapply rrel_bind; [apply p_interaction_T|]. intros u u' Eu _ Hu. sf.
        eapply rrel_bind.
        * apply k_fix_nan_T; [exact Hu|].
          destruct (p_interaction_inv _ _ _ Eu) as (? & ? & ? & t' & ? & ? & ? & ? & ? & (_ & _ & _ & T) & _ & _ & _ & _ & _ & K).
          apply k_interaction_ble in K. replace t' with a in K by congruence. apply K.
        * intros z z' _ _ Hz. split; [exact Hs|]. split; [exact Hv|exact Hz].
      + split; [exact Hs|]. split; [exact Hv|exact I].
  Qed.
  Lemma p_calc_T : RT (p_calc X fe) (p_calc Y fe).
  Proof.
    unfold p_calc.
    assert (H : RT (p_calc_body X fe) (p_calc_body Y fe)).
    { unfold p_calc_body. eapply rrel_bind; [apply p_parts_T|].
      intros [[s v] i] [[s' v'] i'] _ _ (H1 & H2 & H3). simpl in H1, H2, H3.
      eapply rrel_bind. { apply k_rows_T; [exact H1|exact H2|]. cbn [c_intQ bsf_at with_defc]. destruct (c_intQ C); [exact H3|exact I]. }
      intros r r' _ _ Hr. unfold p_convert. cbn [c_sig0 c_dB bsf_at with_defc].
      destruct (c_sig0 C); [|now apply k_convert_T]. do 2 sf. now apply k_convert_T. }
    unfold p_handle. destruct (p_calc_body X fe) as [u|e], (p_calc_body Y fe) as [u'|e']; simpl in H; try tauto. subst e'.
    destruct e; try reflexivity; change (p_missing Y) with (p_missing X); destruct (p_missing X) as [[|]|]; reflexivity.
  Qed.
End Bsf.

(** ** Element-wise: affine in bsf *)
Lemma xmul0_fin v r : xmul (Fin 0%R) v = Fin r -> exists x, v = Fin x.
Proof. destruct v; simpl; intros H; try discriminate; eauto; rewrite rsign_0 in H; discriminate. Qed.


(** [aff b u0 u1 u]: u interpolates u0 and u1, wherever those are numbers *)
Definition aff (b : R) (u0 u1 u : xr) : Prop :=
  forall r0 r1, u0 = Fin r0 -> u1 = Fin r1 -> u = Fin ((1 - b) * r0 + b * r1)%R.
Lemma aff_add b u0 u1 u v0 v1 v : aff b u0 u1 u -> aff b v0 v1 v -> aff b (xadd u0 v0) (xadd u1 v1) (xadd u v).
Proof.
  intros H H' r0 r1 E0 E1. destruct (xadd_fin_inv _ _ _ E0) as (x0 & y0 & -> & ->).
  destruct (xadd_fin_inv _ _ _ E1) as (x1 & y1 & -> & ->). simpl in *. inversion E0; inversion E1.
  rewrite (H _ _ eq_refl eq_refl), (H' _ _ eq_refl eq_refl). simpl. f_equal. ring.
Qed.
Lemma aff_mul b u0 u1 u k : aff b u0 u1 u -> aff b (xmul u0 k) (xmul u1 k) (xmul u k).
Proof.
  intros H r0 r1 E0 E1. destruct (xmul_fin_inv _ _ _ E0) as (x0 & y & -> & ->).
  destruct (xmul_fin_inv _ _ _ E1) as (x1 & y1 & -> & Y). simpl in *. inversion E0; inversion E1.
  rewrite (H _ _ eq_refl eq_refl). simpl. f_equal. ring.
Qed.
Lemma aff_0 b : aff b (Fin 0%R) (Fin 0%R) (Fin 0%R).
Proof. intros r0 r1 E0 E1. inversion E0; inversion E1. f_equal. ring. Qed.
Lemma x_surface_affine i0 mu0 muex srf tau norm b :
  aff b (x_surface i0 mu0 muex srf tau norm (Fin 0%R)) (x_surface i0 mu0 muex srf tau norm (Fin 1%R))
        (x_surface i0 mu0 muex srf tau norm (Fin b)).
Proof.
  intros r0 r1. unfold x_surface, x_mix. rewrite !xsub_Fin.
  set (A := xmul (x_atten tau mu0 muex) (x_bare i0 mu0 srf)). set (B := x_bare i0 mu0 srf).
  intros H0 H1.
  destruct (xmul_fin_inv _ _ _ H0) as (nn & m0 & -> & M0). destruct (xadd_fin_inv _ _ _ M0) as (a0 & b0 & A0 & B0).
  destruct (xmul0_fin _ _ B0) as (bb & EB). rewrite Rminus_0_r, xmul_1_l in A0. rewrite A0, EB in *. simpl in *.
  inversion H0. inversion H1. f_equal. ring.
Qed.
Lemma lin_affine X b :
  aff b (xmul (xsub (Fin 1%R) (Fin 0%R)) X) (xmul (xsub (Fin 1%R) (Fin 1%R)) X) (xmul (xsub (Fin 1%R) (Fin b)) X).
Proof.
  intros r0 r1. rewrite !xsub_Fin. intros H0 H1. 
  rewrite Rminus_0_r, xmul_1_l in H0. subst X. simpl in *. inversion H1. f_equal; ring.
Qed.
Definition x_irest (i0 mu0 muex om tau norm f1 f2 : xr) : xr :=
  xmul norm (xmul (xmul (xmul i0 mu0) om)
             (xadd (xmul (xexp (xdiv (xopp tau) muex)) f1) (xmul (xexp (xdiv (xopp tau) mu0)) f2))).
Lemma x_interaction_lin i0 mu0 muex om tau norm b f1 f2 : x_interaction i0 mu0 muex om tau norm b f1 f2 =
  xmul (xsub (Fin 1%R) b) (x_irest i0 mu0 muex om tau norm f1 f2).
Proof. unfold x_interaction, x_irest. rewrite (xmul_comm norm (xsub _ _)), <- xmul_assoc. reflexivity. Qed.

(** the NaN replacement, seen from the masks *)
Lemma k_fix_nan_fixed ii tau r : k_fix_nan ii tau = Ok r -> ble (shp tau) (shp ii) ->
  (forall j, valid_idx (shp ii) j -> xis_nan (get ii j) = xis_zero (bget tau j)) ->
  forall i, valid_idx (shp ii) i -> get ii i = NaN -> get r i = Fin 0%R.
Proof.
  intros H B M i Hi N. unfold k_fix_nan in H.
  assert (A : nd_any (map1 xis_nan ii) = true).
  { unfold nd_any. apply existsb_exists. exists i. split; [apply all_idx_valid; exact Hi|]. cbn [get map1]. now rewrite N. }
  rewrite A in H. destruct (map2_eq Bool.eqb (map1 xis_nan ii) (map1 xis_zero tau) B) as (c & E & Sc).
  rewrite E in H. cbn [rbind] in H.
  assert (Al : nd_all c = true).
  { unfold nd_all. apply forallb_forall. intros j Hj. rewrite all_idx_valid, Sc in Hj. cbn [shp map1] in Hj.
    rewrite <- (bget_valid c) by (rewrite Sc; exact Hj).
    rewrite (bget_map2 _ _ _ _ j E), !bget_map1, (bget_valid ii) by assumption. rewrite M by assumption.
    apply Bool.eqb_reflx. }
  rewrite Al in H. inversion H; subst r. cbn [get map1]. rewrite N. reflexivity.
Qed.
Lemma xis_nan_eq x : xis_nan x = true -> x = NaN. Proof. destruct x; simpl; congruence. Qed.

Section Affine.
  Context (C : config) (fe : res (option compiled)) (b : R) (a0 a1 : nd xr).
  Hypothesis (Hlin : c_dB C = false).
  Hypothesis (H0 : p_calc (bsf_at C 0) fe = Ok a0).
  Hypothesis (H1 : p_calc (bsf_at C 1) fe = Ok a1).
  Lemma p_calc_affine : exists a, p_calc (bsf_at C b) fe = Ok a /\ shp a = shp a0 /\ nrows a = nrow C /\
    forall k i, k < nrow C -> valid_idx (shp (row a k)) i ->
      aff b (get (row a0 k) i) (get (row a1 k) i) (get (row a k) i).
  Proof.
    pose proof (p_calc_T C fe 0 b) as RT0. rewrite H0 in RT0. destruct (p_calc (bsf_at C b) fe) as [a|] eqn:Hb; [|simpl in RT0; contradiction].
    exists a. split; [reflexivity|]. split; [symmetry; apply RT0|].
    destruct (Req_dec b 1) as [->|Nb].
    { rewrite H1 in Hb. inversion Hb; subst a.
      destruct (p_calc_rows _ _ _ H1) as (? & ? & ? & ? & ? & ? & ? & _ & _ & _ & _ & _ & _ & _ & _ & _ & S & _).
      split; [apply (nrows_eq _ _ _ S)|]. intros k i _ _ r0 r1 _ ->. f_equal. ring. }
    destruct (p_calc_rows _ _ _ H0) as (tau & n & s0 & i0 & mu0 & v0 & x0 & Et0 & Es0 & Ei0 & Em0 & Bi0 & Bm0 & Sv0 & Hv0 & Hi0 & Sa0 & G0).
    destruct (p_calc_rows _ _ _ H1) as (tau1 & n1 & s1 & i1 & mu1 & v1 & x1 & Et1 & Es1 & Ei1 & Em1 & Bi1 & Bm1 & Sv1 & Hv1 & Hi1 & Sa1 & G1).
    destruct (p_calc_rows _ _ _ Hb) as (taub & nb & sb & ib & mub & vb & xb & Etb & Esb & Eib & Emb & Bib & Bmb & Svb & Hvb & Hib & Sab & Gb).
    assert (tau1 = tau /\ n1 = n /\ taub = tau /\ nb = n) as (-> & -> & -> & ->).
    { change (p_eval (bsf_at C 1) Tau) with (p_eval (bsf_at C 0) Tau) in Et1.
      change (p_eval (bsf_at C b) Tau) with (p_eval (bsf_at C 0) Tau) in Etb. rewrite Et0 in Et1, Etb.
      injection Et1 as <- <-; injection Etb as <- <-; auto. }
    assert (i1 = i0 /\ ib = i0) as [-> ->].
    { change (c_I0 (bsf_at C 1)) with (c_I0 (bsf_at C 0)) in Ei1. change (c_I0 (bsf_at C b)) with (c_I0 (bsf_at C 0)) in Eib.
      split; congruence. }
    assert (mu1 = mu0 /\ mub = mu0) as [-> ->].
    { change (p_mu0 (bsf_at C 1)) with (p_mu0 (bsf_at C 0)) in Em1. change (p_mu0 (bsf_at C b)) with (p_mu0 (bsf_at C 0)) in Emb.
      split; congruence. }
    change (nrow (bsf_at C 0)) with (nrow C) in *. change (nrow (bsf_at C 1)) with (nrow C) in *. change (nrow (bsf_at C b)) with (nrow C) in *.
    change (c_intQ (bsf_at C 0)) with (c_intQ C) in *. change (c_intQ (bsf_at C 1)) with (c_intQ C) in *. change (c_intQ (bsf_at C b)) with (c_intQ C) in *.
    change (c_sig0 (bsf_at C 0)) with (c_sig0 C) in *. change (c_sig0 (bsf_at C 1)) with (c_sig0 C) in *. change (c_sig0 (bsf_at C b)) with (c_sig0 C) in *.
    change (c_dB (bsf_at C 0)) with (c_dB C) in *. change (c_dB (bsf_at C 1)) with (c_dB C) in *. change (c_dB (bsf_at C b)) with (c_dB C) in *.
    change (off (bsf_at C 0) tau n) with (off C tau n) in *. change (off (bsf_at C 1) tau n) with (off C tau n) in *. change (off (bsf_at C b) tau n) with (off C tau n) in *.
    assert (S01 : shp s1 = shp s0).
    { pose proof (p_calc_T C fe 0 1) as X. rewrite H0, H1 in X. destruct X as [X _]. rewrite Sa0, Sa1 in X. now apply app_inv_tail in X. }
    assert (S0b : shp sb = shp s0).
    { destruct RT0 as [X _]. rewrite Sa0, Sab in X. now apply app_inv_tail in X. }
    rewrite S01 in *. rewrite S0b in *.
    split; [eapply nrows_eq; eassumption|]. intros k i Hk. rewrite (row_shp _ _ _ k Sab). intros Vi. cbn [row get].
    specialize (G0 i Vi). specialize (G1 i Vi). specialize (Gb i Vi). rewrite Hlin in *.
    destruct G0 as (G01 & G02 & G03 & G00), G1 as (G11 & G12 & G13 & G10), Gb as (Gb1 & Gb2 & Gb3 & Gb0).
    rewrite x_convert_lin in *.
    assert (AS : aff b (get s0 i) (get s1 i) (get sb i)).
    { destruct (p_surface_inv _ _ Es0) as (j0 & m0 & e0 & t0 & f0 & n0 & bb0 & (I1 & I2 & I3 & I4) & I5 & I6 & I7 & K0).
      destruct (p_surface_inv _ _ Es1) as (j1 & m1 & e1 & t1 & f1 & n1 & bb1 & (J1 & J2 & J3 & J4) & J5 & J6 & J7 & K1).
      destruct (p_surface_inv _ _ Esb) as (jb & mb & eb & tb & fb & nb & bbb & (L1 & L2 & L3 & L4) & L5 & L6 & L7 & Kb).
      change (p_muex (bsf_at C 1)) with (p_muex (bsf_at C 0)) in J3. change (p_muex (bsf_at C b)) with (p_muex (bsf_at C 0)) in L3.
      change (p_mu0 (bsf_at C 1)) with (p_mu0 (bsf_at C 0)) in J2. change (p_mu0 (bsf_at C b)) with (p_mu0 (bsf_at C 0)) in L2.
      change (c_I0 (bsf_at C 1)) with (c_I0 (bsf_at C 0)) in J1. change (c_I0 (bsf_at C b)) with (c_I0 (bsf_at C 0)) in L1.
      change (p_val (bsf_at C 1) Tau) with (p_val (bsf_at C 0) Tau) in J4. change (p_val (bsf_at C b) Tau) with (p_val (bsf_at C 0) Tau) in L4.
      change (p_val (bsf_at C 1) NormBRDF) with (p_val (bsf_at C 0) NormBRDF) in J6. change (p_val (bsf_at C b) NormBRDF) with (p_val (bsf_at C 0) NormBRDF) in L6.
      change (p_scat (bsf_at C 1) WSRF) with (p_scat (bsf_at C 0) WSRF) in J5. change (p_scat (bsf_at C b) WSRF) with (p_scat (bsf_at C 0) WSRF) in L5.
      rewrite p_bsf in I7, J7, L7.
      rewrite I1 in J1, L1. rewrite I2 in J2, L2. rewrite I3 in J3, L3. rewrite I4 in J4, L4. rewrite I5 in J5, L5. rewrite I6 in J6, L6.
      injection J1 as <-; injection J2 as <-; injection J3 as <-; injection J4 as <-; injection J5 as <-; injection J6 as <-;
      injection L1 as <-; injection L2 as <-; injection L3 as <-; injection L4 as <-; injection L5 as <-; injection L6 as <-;
      injection I7 as <-; injection J7 as <-; injection L7 as <-.
      rewrite <- (bget_valid s0), <- (bget_valid s1), <- (bget_valid sb) by congruence.
      rewrite (k_surface_el _ _ _ _ _ _ _ _ _ K0), (k_surface_el _ _ _ _ _ _ _ _ _ K1), (k_surface_el _ _ _ _ _ _ _ _ _ Kb).
      apply x_surface_affine. }
    assert (AV : aff b (get v0 i) (get v1 i) (get vb i)).
    { destruct (off C tau n); [subst v0 v1 vb; apply aff_0|].
      destruct (p_volume_inv _ _ Hv0) as (j0 & m0 & e0 & t0 & f0 & n0 & bb0 & (I1 & I2 & I3 & I4) & I5 & I6 & I7 & K0).
      destruct (p_volume_inv _ _ Hv1) as (j1 & m1 & e1 & t1 & f1 & n1 & bb1 & (J1 & J2 & J3 & J4) & J5 & J6 & J7 & K1).
      destruct (p_volume_inv _ _ Hvb) as (jb & mb & eb & tb & fb & nb & bbb & (L1 & L2 & L3 & L4) & L5 & L6 & L7 & Kb).
      change (p_muex (bsf_at C 1)) with (p_muex (bsf_at C 0)) in J3. change (p_muex (bsf_at C b)) with (p_muex (bsf_at C 0)) in L3.
      change (p_mu0 (bsf_at C 1)) with (p_mu0 (bsf_at C 0)) in J2. change (p_mu0 (bsf_at C b)) with (p_mu0 (bsf_at C 0)) in L2.
      change (c_I0 (bsf_at C 1)) with (c_I0 (bsf_at C 0)) in J1. change (c_I0 (bsf_at C b)) with (c_I0 (bsf_at C 0)) in L1.
      change (p_val (bsf_at C 1) Tau) with (p_val (bsf_at C 0) Tau) in J4. change (p_val (bsf_at C b) Tau) with (p_val (bsf_at C 0) Tau) in L4.
      change (p_val (bsf_at C 1) Omega) with (p_val (bsf_at C 0) Omega) in J6. change (p_val (bsf_at C b) Omega) with (p_val (bsf_at C 0) Omega) in L6.
      change (p_scat (bsf_at C 1) WV) with (p_scat (bsf_at C 0) WV) in J5. change (p_scat (bsf_at C b) WV) with (p_scat (bsf_at C 0) WV) in L5.
      rewrite p_bsf in I7, J7, L7.
      rewrite I1 in J1, L1. rewrite I2 in J2, L2. rewrite I3 in J3, L3. rewrite I4 in J4, L4. rewrite I5 in J5, L5. rewrite I6 in J6, L6.
      injection J1 as <-; injection J2 as <-; injection J3 as <-; injection J4 as <-; injection J5 as <-; injection J6 as <-;
      injection L1 as <-; injection L2 as <-; injection L3 as <-; injection L4 as <-; injection L5 as <-; injection L6 as <-;
      injection I7 as <-; injection J7 as <-; injection L7 as <-.
      rewrite <- (bget_valid v0), <- (bget_valid v1), <- (bget_valid vb) by congruence.
      rewrite (k_volume_el _ _ _ _ _ _ _ _ _ K0), (k_volume_el _ _ _ _ _ _ _ _ _ K1), (k_volume_el _ _ _ _ _ _ _ _ _ Kb).
      apply lin_affine. }
    assert (AI : c_intQ C = true -> aff b (get x0 i) (get x1 i) (get xb i)).
    { intros Q. destruct (Hi0 Q) as [Sx0 X0], (Hi1 Q) as [Sx1 X1], (Hib Q) as [Sxb Xb].
      destruct (off C tau n); [subst x0 x1 xb; apply aff_0|].
      assert (R : forall y0 y1 yb, shp y0 = shp s0 -> shp y1 = shp s0 -> shp yb = shp s0 ->
        p_interaction (bsf_at C 0) fe = Ok y0 -> p_interaction (bsf_at C 1) fe = Ok y1 -> p_interaction (bsf_at C b) fe = Ok yb ->
        ble (shp tau) (shp s0) /\ exists X, forall j, valid_idx (shp s0) j -> 
          get y0 j = xmul (xsub (Fin 1%R) (Fin 0%R)) (X j) /\ get y1 j = xmul (xsub (Fin 1%R) (Fin 1%R)) (X j) /\
          get yb j = xmul (xsub (Fin 1%R) (Fin b)) (X j)).
      { intros y0 y1 yb Y0 Y1 Yb E0 E1 Eb.
        destruct (p_interaction_inv _ _ _ E0) as (j0 & m0 & e0 & t0 & o0 & n0 & bb0 & f0 & g0 & (I1 & I2 & I3 & I4) & I5 & I6 & I7 & I8 & I9 & K0).
        destruct (p_interaction_inv _ _ _ E1) as (j1 & m1 & e1 & t1 & o1 & n1 & bb1 & f1 & g1 & (J1 & J2 & J3 & J4) & J5 & J6 & J7 & J8 & J9 & K1).
        destruct (p_interaction_inv _ _ _ Eb) as (jb & mb & eb & tb & ob & nb & bbb & fb & gb & (L1 & L2 & L3 & L4) & L5 & L6 & L7 & L8 & L9 & Kb).
        change (p_muex (bsf_at C 1)) with (p_muex (bsf_at C 0)) in J3. change (p_muex (bsf_at C b)) with (p_muex (bsf_at C 0)) in L3.
        change (p_mu0 (bsf_at C 1)) with (p_mu0 (bsf_at C 0)) in J2. change (p_mu0 (bsf_at C b)) with (p_mu0 (bsf_at C 0)) in L2.
        change (c_I0 (bsf_at C 1)) with (c_I0 (bsf_at C 0)) in J1. change (c_I0 (bsf_at C b)) with (c_I0 (bsf_at C 0)) in L1.
        change (p_val (bsf_at C 1) Tau) with (p_val (bsf_at C 0) Tau) in J4. change (p_val (bsf_at C b) Tau) with (p_val (bsf_at C 0) Tau) in L4.
        change (p_val (bsf_at C 1) Omega) with (p_val (bsf_at C 0) Omega) in J7. change (p_val (bsf_at C b) Omega) with (p_val (bsf_at C 0) Omega) in L7.
        change (p_val (bsf_at C 1) NormBRDF) with (p_val (bsf_at C 0) NormBRDF) in J8. change (p_val (bsf_at C b) NormBRDF) with (p_val (bsf_at C 0) NormBRDF) in L8.
        change (p_Fint (bsf_at C 1) fe) with (p_Fint (bsf_at C 0) fe) in J5, J6. change (p_Fint (bsf_at C b) fe) with (p_Fint (bsf_at C 0) fe) in L5, L6.
        rewrite p_bsf in I9, J9, L9.
        rewrite I1 in J1, L1. rewrite I2 in J2, L2. rewrite I3 in J3, L3. rewrite I4 in J4, L4. rewrite I5 in J5, L5. rewrite I6 in J6, L6.
        rewrite I7 in J7, L7. rewrite I8 in J8, L8.
        injection J1 as <-; injection J2 as <-; injection J3 as <-; injection J4 as <-; injection J5 as <-; injection J6 as <-;
        injection J7 as <-; injection J8 as <-; injection L7 as <-; injection L8 as <-;
        injection L1 as <-; injection L2 as <-; injection L3 as <-; injection L4 as <-; injection L5 as <-; injection L6 as <-;
        injection I9 as <-; injection J9 as <-; injection L9 as <-.
        split.
        { replace t0 with tau in * by (apply p_val_eval in Et0; congruence). rewrite <- Y0. apply k_interaction_ble in K0. apply K0. }
        exists (fun j => x_irest (bget j0 j) (bget m0 j) (bget e0 j) (bget o0 j) (bget t0 j) (bget n0 j) (bget f0 j) (bget g0 j)).
        intros j Vj. rewrite <- (bget_valid y0), <- (bget_valid y1), <- (bget_valid yb) by congruence.
        rewrite (k_interaction_el _ _ _ _ _ _ _ _ _ _ _ K0), (k_interaction_el _ _ _ _ _ _ _ _ _ _ _ K1), (k_interaction_el _ _ _ _ _ _ _ _ _ _ _ Kb).
        rewrite !x_interaction_lin. auto. }
      destruct n.
      - destruct (R x0 x1 xb) as (_ & X & HX); auto. destruct (HX i Vi) as (-> & -> & ->). apply lin_affine.
      - destruct X0 as (y0 & Y0 & F0), X1 as (y1 & Y1 & F1), Xb as (yb & Yb & Fb).
        destruct (k_fix_nan_spec _ _ _ F0) as [T0 Z0], (k_fix_nan_spec _ _ _ F1) as [T1 Z1], (k_fix_nan_spec _ _ _ Fb) as [Tb Zb].
        assert (U0 : shp y0 = shp s0) by congruence. assert (U1 : shp y1 = shp s0) by congruence. assert (Ub : shp yb = shp s0) by congruence.
        destruct (R y0 y1 yb) as (BT & X & HX); auto. rewrite U0 in *; rewrite U1 in *; rewrite Ub in *.
        destruct (HX i Vi) as (E0 & E1 & Eb). intros r0 r1 R0 R1.
        destruct (Z0 i Vi) as [W0|(N0 & W0 & M0)].
        + rewrite W0, E0 in R0. pose proof R0 as RX. rewrite xsub_Fin, Rminus_0_r, xmul_1_l in RX.
          rewrite RX in E1, Eb. destruct (Z1 i Vi) as [W1|(N1 & _ & _)]; [|rewrite E1, xsub_Fin in N1; discriminate].
          destruct (Zb i Vi) as [Wb|(Nb' & _ & _)]; [|rewrite Eb, xsub_Fin in Nb'; discriminate].
          rewrite Wb, Eb. rewrite W1, E1 in R1. rewrite xsub_Fin in *. simpl in *. inversion R1. f_equal. ring.
        + rewrite W0 in R0. inversion R0; subst r0.
          assert (XN : X i = NaN). { rewrite E0, xsub_Fin, Rminus_0_r, xmul_1_l in N0. exact N0. }
          assert (r1 = 0%R). { destruct (Z1 i Vi) as [W1|(N1 & W1 & _)]; [|congruence]. rewrite W1, E1, XN in R1. rewrite xsub_Fin in R1. discriminate. }
          subst r1. replace ((1 - b) * 0 + b * 0)%R with 0%R by ring.
          apply (k_fix_nan_fixed _ _ _ Fb); try (rewrite Ub; assumption).
          * intros j. rewrite Ub. intros Vj. rewrite <- (M0 j Vj BT). destruct (HX j Vj) as (-> & _ & ->).
            rewrite !xsub_Fin, Rminus_0_r, xmul_1_l. destruct (X j) as [r| | |]; simpl; try reflexivity;
              (destruct (Rtotal_order (1 - b) 0) as [Hs|[Hs|Hs]]; [rewrite rsign_neg by assumption|exfalso; apply Nb; lra|rewrite rsign_pos by assumption]; reflexivity).
          * rewrite Eb, XN. rewrite xsub_Fin. reflexivity. }
    unfold nrow in Hk. destruct k as [|[|[|[|k]]]].
    - rewrite G00, G10, Gb0. rewrite ?x_convert_lin. apply aff_mul. destruct (c_intQ C); repeat apply aff_add; auto.
    - rewrite G01, G11, Gb1. now apply aff_mul.
    - rewrite G02, G12, Gb2, ?x_convert_lin. now apply aff_mul.
    - destruct (c_intQ C); [|lia]. rewrite G03, G13, Gb3, ?x_convert_lin by reflexivity. apply aff_mul; auto.
    - destruct (c_intQ C); lia.
  Qed.
End Affine.
