(** Dependence on the incident intensity I0. *)
From Coq Require Import FunctionalExtensionality.
From Verif Require Export NumProps.
Open Scope nat_scope.

Definition with_I0c (C : config) (v : res (nd xr)) : config :=
  mk_conf (c_backend C) (c_seng C) (c_V C) (c_SRF C) (c_intQ C) (c_sig0 C) (c_dB C) (c_fnin C) (c_fnevin C) v
    (c_def C) (c_params C) (c_mono C) (c_ang C) (c_geom C).
Definition with_defc (C : config) (p : pname) (d : cdef) : config :=
  mk_conf (c_backend C) (c_seng C) (c_V C) (c_SRF C) (c_intQ C) (c_sig0 C) (c_dB C) (c_fnin C) (c_fnevin C) (c_I0 C)
    (fun q => match p, q with Tau, Tau | Omega, Omega | NormBRDF, NormBRDF | Bsf, Bsf => d | _, _ => c_def C q end)
    (c_params C) (c_mono C) (c_ang C) (c_geom C).

Lemma conf_with_I0 h r v : conf h (with_I0 r v) = with_I0c (conf h r) (deref h v).
Proof. reflexivity. Qed.
Lemma conf_with_def h r p d : conf h (with_def r p d) = with_defc (conf h r) p (cdef_of h d).
Proof.
  unfold conf, with_defc, with_def. simpl. f_equal. apply functional_extensionality. intros q. destruct p, q; reflexivity.
Qed.
Lemma fnev_with_I0 h r v : fnev_next h (with_I0 r v) = fnev_next h r. Proof. reflexivity. Qed.
Lemma fnev_with_def h r p d : fnev_next h (with_def r p d) = fnev_next h r.
Proof. unfold fnev_next, fn_next. rewrite conf_with_def. reflexivity. Qed.

(** API: assigning R.I0, R.tau, ... *)
Lemma at_set_I0 w o v C fe : at_conf w o C fe ->
  at_conf (fst (step w (OSetI0 o v))) o (with_I0c C (deref (w_heap w) v)) fe /\ snd (step w (OSetI0 o v)) = RetNone.
Proof.
  intros (r & Hr & -> & ->). cbn [step]. unfold as_out, bind, get_obj, gets. rewrite Hr. split; [|reflexivity].
  exists (with_I0 r v). split; [|split; reflexivity]. cbn [fst put_obj set_heap w_heap]. eapply obj_put_same; eassumption.
Qed.
Lemma at_set_def w o p d C fe : at_conf w o C fe ->
  at_conf (fst (step w (OSetDef o p d))) o (with_defc C p (cdef_of (w_heap w) d)) fe /\ snd (step w (OSetDef o p d)) = RetNone.
Proof.
  intros (r & Hr & -> & ->). cbn [step]. unfold as_out, set_def.
  assert (Ec : exists w1, clear_param_cache w = (w1, Ok tt) /\ w_heap w1 = w_heap w) by (eexists; split; reflexivity).
  destruct Ec as (w1 & Ec & Ew). unfold bind, get_obj, gets. rewrite !Ec, Ew, Hr. split; [|reflexivity].
  exists (with_def r p d). cbn [fst put_obj set_heap w_heap]. rewrite Ew.
  split; [eapply obj_put_same; eassumption|].
  split; [symmetry; exact (conf_with_def (w_heap w) r p d)|symmetry; exact (fnev_with_def (w_heap w) r p d)].
Qed.

(** ** I0 enters every contribution as a factor *)
Section ScaleRel.
  Context (x y : R).
  Hypothesis (Hx : (0 < x)%R) (Hy : (0 < y)%R).
  Definition Sc (u v : xr) : Prop := exists z, u = xmul (Fin x) z /\ v = xmul (Fin y) z.
  Lemma Sc_base : Sc (Fin x) (Fin y).
  Proof. exists (Fin 1%R). now rewrite !xmul_1_r. Qed.
  Lemma Sc_mul_r u v t t' : Sc u v -> t = t' -> Sc (xmul u t) (xmul v t').
  Proof. intros (z & -> & ->) <-. exists (xmul z t). now rewrite !xmul_assoc. Qed.
  Lemma Sc_mul_l u v t t' : t = t' -> Sc u v -> Sc (xmul t u) (xmul t' v).
  Proof. intros E H. rewrite (xmul_comm t), (xmul_comm t'). now apply Sc_mul_r. Qed.
  Lemma Sc_add u v u' v' : Sc u v -> Sc u' v' -> Sc (xadd u u') (xadd v v').
  Proof. intros (z & -> & ->) (z' & -> & ->). exists (xadd z z'). now rewrite !xmul_fin_add. Qed.
  Lemma Sc_div u v t t' : Sc u v -> t = t' -> Sc (xdiv u t) (xdiv v t').
  Proof. intros (z & -> & ->) <-. exists (xdiv z t). now rewrite !xdiv_mul by assumption. Qed.
  Lemma Sc_nan u v : Sc u v -> xis_nan u = xis_nan v.
  Proof. intros (z & -> & ->). now rewrite !xis_nan_scale by assumption. Qed.

  Notation RS := (rrel (nrel Sc)).
  Lemma nmulS_r a a' b : nrel Sc a a' -> RS (nmul a b) (nmul a' b).
  Proof. intros H. apply (map2_rel Sc eq Sc); [assumption|now apply nrel_refl|intros; now apply Sc_mul_r]. Qed.
  Lemma nmulS_l a a' b : nrel Sc a a' -> RS (nmul b a) (nmul b a').
  Proof. intros H. apply (map2_rel eq Sc Sc); [now apply nrel_refl|assumption|intros; now apply Sc_mul_l]. Qed.
  Lemma naddS a a' b b' : nrel Sc a a' -> nrel Sc b b' -> RS (nadd a b) (nadd a' b').
  Proof. intros H H'. apply (map2_rel Sc Sc Sc); [assumption|assumption|intros; now apply Sc_add]. Qed.
  Lemma ndivS a a' b : nrel Sc a a' -> RS (ndiv a b) (ndiv a' b).
  Proof. intros H. apply (map2_rel Sc eq Sc); [assumption|now apply nrel_refl|intros; now apply Sc_div]. Qed.

  Ltac sb l := eapply rrel_bind; [apply l; eassumption|intros ? ? _ _ ?].
  Ltac se := apply rrel_eq_bind; intros ? _.
  Lemma k_surface_S i0 i0' mu0 muex srf tau norm bsf : nrel Sc i0 i0' ->
    RS (k_surface i0 mu0 muex srf tau norm bsf) (k_surface i0' mu0 muex srf tau norm bsf).
  Proof.
    intros H. unfold k_surface, k_bare, k_mix.
    eapply (rrel_bind (nrel Sc)). { sb nmulS_r. now apply nmulS_r. }
    intros ? ? _ _ ?. se. sb nmulS_l.
    eapply (rrel_bind (nrel Sc)). { se. sb nmulS_l. sb nmulS_l. now apply naddS. }
    intros ? ? _ _ ?. now apply nmulS_l.
  Qed.
  Lemma k_volume_S i0 i0' om mu0 muex tau v bsf : nrel Sc i0 i0' ->
    RS (k_volume i0 om mu0 muex tau v bsf) (k_volume i0' om mu0 muex tau v bsf).
  Proof.
    intros H. unfold k_volume, k_vol.
    eapply (rrel_bind (nrel Sc)). { sb nmulS_r. sb nmulS_r. se. sb ndivS. se. se. sb nmulS_r. now apply nmulS_r. }
    intros ? ? _ _ ?. se. now apply nmulS_l.
  Qed.
  Lemma k_interaction_S i0 i0' mu0 muex om tau norm bsf f1 f2 : nrel Sc i0 i0' ->
    RS (k_interaction i0 mu0 muex om tau norm bsf f1 f2) (k_interaction i0' mu0 muex om tau norm bsf f1 f2).
  Proof.
    intros H. unfold k_interaction. sb nmulS_r. sb nmulS_r. se. se. se. se. se. sb nmulS_r. se. se. now apply nmulS_l.
  Qed.
  Lemma nd_any_eq (a b : nd bool) : nrel eq a b -> nd_any a = nd_any b.
  Proof. intros [H1 H2]. unfold nd_any. rewrite H1. induction (all_idx (shp b)); simpl; congruence. Qed.
  Lemma nd_all_eq (a b : nd bool) : nrel eq a b -> nd_all a = nd_all b.
  Proof. intros [H1 H2]. unfold nd_all. rewrite H1. induction (all_idx (shp b)); simpl; congruence. Qed.
  Lemma k_fix_nan_S i i' tau : nrel Sc i i' -> RS (k_fix_nan i tau) (k_fix_nan i' tau).
  Proof.
    intros H. unfold k_fix_nan.
    assert (N : nrel eq (map1 xis_nan i) (map1 xis_nan i')) by (eapply map1_rel; [exact H|apply Sc_nan]).
    rewrite (nd_any_eq _ _ N). destruct (nd_any _); [|exact H].
    eapply rrel_bind; [eapply (map2_rel eq eq eq); [exact N|now apply nrel_refl|intros; congruence]|].
    intros s s' _ _ Hs. rewrite (nd_all_eq _ _ Hs). destruct (nd_all s'); [|exact H].
    simpl. eapply map1_rel; [exact H|]. intros u v Huv. rewrite (Sc_nan _ _ Huv). destruct (xis_nan v); [|exact Huv].
    exists (Fin 0%R). rewrite !xmul_Fin, !Rmult_0_r. auto.
  Qed.
  Lemma k_rows_S a a' b b' c c' : nrel Sc a a' -> nrel Sc b b' ->
    match c, c' with Some u, Some v => nrel Sc u v | None, None => True | _, _ => False end ->
    RS (k_rows a b c) (k_rows a' b' c').
  Proof.
    intros Ha Hb Hc. unfold k_rows. eapply rrel_bind; [apply naddS; eassumption|]. intros u v _ _ Huv.
    destruct c as [c|], c' as [c'|]; try tauto.
    - eapply rrel_bind; [apply naddS; eassumption|]. intros ? ? _ _ ?. apply stack_rel. repeat (constructor; [assumption|]). constructor.
    - apply stack_rel. repeat (constructor; [assumption|]). constructor.
  Qed.
  Lemma num_S : nrel Sc (num x) (num y). Proof. split; [reflexivity|]. intros i. apply Sc_base. Qed.

  (** sigma0: the factor 1/I0 cancels *)
  Lemma k_convert_sig0 dB mu0 v v' : nrel Sc v v' ->
    rrel (nrel eq) (k_convert true dB (num x) mu0 v) (k_convert true dB (num y) mu0 v').
  Proof.
    intros H. unfold k_convert.
    set (Q := fun s s' : xr => exists z, s = xmul z (Fin (/ x)) /\ s' = xmul z (Fin (/ y))).
    eapply (rrel_bind (nrel Q)).
    { se. apply (map2_rel eq (fun u v => u = Fin x /\ v = Fin y) Q).
      - now apply nrel_refl.
      - split; [reflexivity|]. intros i. split; reflexivity.
      - intros s s' t t' -> [-> ->]. exists s'. now rewrite !xdiv_pos by assumption. }
    intros s s' _ _ Hs. eapply (rrel_bind (nrel eq)).
    { apply (map2_rel Sc Q eq); [exact H|exact Hs|]. intros u v0 t t' (z & -> & ->) (z' & -> & ->).
      assert (forall k, (0 < k)%R -> xmul (xmul (Fin k) z) (xmul z' (Fin (/ k))) = xmul z z') as K; [|now rewrite !K].
      intros k Hk. rewrite (xmul_comm z'), xmul_assoc, (xmul_comm _ (Fin (/k))), xmul_assoc, xmul_Fin, Rinv_l, xmul_1_l by lra.
      reflexivity. }
    intros r r' _ _ Hr. destruct dB; [|exact Hr].
    apply (map2_rel eq eq eq); [now apply nrel_refl|eapply map1_rel; [exact Hr|congruence]|congruence].
  Qed.
  Lemma k_convert_lin mu0 i0 i0' v v' : nrel Sc v v' -> RS (k_convert false false i0 mu0 v) (k_convert false false i0' mu0 v').
  Proof. intros H. unfold k_convert. cbn [rbind]. eapply rrel_bind; [apply nmulS_r; exact H|]. intros ? ? _ _ X. exact X. Qed.

  Context (C : config) (fe : res (option compiled)).
  Notation Cx := (with_I0c C (Ok (num x))).
  Notation Cy := (with_I0c C (Ok (num y))).
  Ltac sf := match goal with |- rrel _ (rbind ?u _) (rbind ?v _) => change v with u; apply rrel_eq_bind; intros ? _ end.
  Lemma p_surface_S : RS (p_surface Cx) (p_surface Cy).
  Proof. unfold p_surface. cbn [c_I0 with_I0c rbind]. do 6 sf. apply k_surface_S, num_S. Qed.
  Lemma p_volume_S : RS (p_volume Cx) (p_volume Cy).
  Proof. unfold p_volume. cbn [c_I0 with_I0c rbind]. do 6 sf. apply k_volume_S, num_S. Qed.
  Lemma p_interaction_S : RS (p_interaction Cx fe) (p_interaction Cy fe).
  Proof. unfold p_interaction. do 2 sf. cbn [c_I0 with_I0c rbind]. do 6 sf. apply k_interaction_S, num_S. Qed.

  Lemma zeros_S a b : nrel Sc a b -> nrel Sc (zeros_like a) (zeros_like b).
  Proof. intros [H _]. split; [exact H|]. intros i. exists (Fin 0%R). cbn [get zeros_like]. rewrite !xmul_Fin, !Rmult_0_r. auto. Qed.
  Definition part_rel (p q : nd xr * nd xr * option (nd xr)) : Prop :=
    nrel Sc (fst (fst p)) (fst (fst q)) /\ nrel Sc (snd (fst p)) (snd (fst q)) /\
    match snd p, snd q with Some u, Some v => nrel Sc u v | None, None => True | _, _ => False end.
  Lemma p_parts_S : rrel part_rel (p_parts Cx fe) (p_parts Cy fe).
  Proof.
    unfold p_parts. sf. destruct a as [tau b]. destruct b.
    - eapply rrel_bind; [apply p_surface_S|]. intros s s' _ _ Hs. destruct (xgt0 _).
      + eapply rrel_bind; [apply p_volume_S|]. intros v v' _ _ Hv.
        eapply (rrel_bind (nrel Sc)).
        * cbn [c_intQ with_I0c]. destruct (c_intQ C); [apply p_interaction_S|]. simpl. split; [reflexivity|].
          intros i. exists (Fin 0%R). cbn [get]. rewrite !xmul_Fin, !Rmult_0_r. auto.
        * intros u u' _ _ Hu. repeat split; try apply Hs; try apply Hv; try apply Hu.
      + repeat split; try apply Hs; intros i; exists (Fin 0%R); cbn; rewrite !Rmult_0_r; auto.
    - eapply rrel_bind; [apply p_surface_S|]. intros s s' _ _ Hs.
      eapply rrel_bind; [apply p_volume_S|]. intros v v' _ _ Hv.
      cbn [c_intQ with_I0c]. destruct (c_intQ C).
      + eapply rrel_bind; [apply p_interaction_S|]. intros u u' _ _ Hu. sf.
        eapply rrel_bind; [apply k_fix_nan_S; exact Hu|]. intros z z' _ _ Hz.
        repeat split; try apply Hs; try apply Hv; try apply Hz.
      + repeat split; try apply Hs; try apply Hv.
  Qed.
  Lemma p_handle_rel (Q : nd xr -> nd xr -> Prop) u v : rrel Q u v -> rrel Q (p_handle Cx u) (p_handle Cy v).
  Proof.
    intros H. unfold p_handle. destruct u as [u|e], v as [v|e']; simpl in H; try tauto. subst e'.
    destruct e; try reflexivity; change (p_missing Cy) with (p_missing Cx); destruct (p_missing Cx) as [[|]|]; reflexivity.
  Qed.
  Lemma p_calc_sig0 : c_sig0 C = true -> rrel (nrel eq) (p_calc Cx fe) (p_calc Cy fe).
  Proof.
    intros Hs. apply p_handle_rel. unfold p_calc_body. eapply rrel_bind; [apply p_parts_S|].
    intros [[a b] c] [[a' b'] c'] _ _ (Ha & Hb & Hc). simpl in Ha, Hb, Hc.
    eapply rrel_bind. { apply k_rows_S; [exact Ha|exact Hb|]. cbn [c_intQ with_I0c]. destruct (c_intQ C); [exact Hc|exact I]. }
    intros r r' _ _ Hr. unfold p_convert. cbn [c_sig0 with_I0c]. rewrite Hs. sf. cbn [c_I0 with_I0c rbind].
    now apply k_convert_sig0.
  Qed.
  Lemma p_calc_lin : c_sig0 C = false -> c_dB C = false -> RS (p_calc Cx fe) (p_calc Cy fe).
  Proof.
    intros Hs Hd. apply p_handle_rel. unfold p_calc_body. eapply rrel_bind; [apply p_parts_S|].
    intros [[a b] c] [[a' b'] c'] _ _ (Ha & Hb & Hc). simpl in Ha, Hb, Hc.
    eapply rrel_bind. { apply k_rows_S; [exact Ha|exact Hb|]. cbn [c_intQ with_I0c]. destruct (c_intQ C); [exact Hc|exact I]. }
    intros r r' _ _ Hr. unfold p_convert. cbn [c_sig0 c_dB with_I0c]. rewrite Hs, Hd. now apply k_convert_lin.
  Qed.
End ScaleRel.
