(** calc() returns an array where the single contributions do. *)
From Verif Require Export NumProps.
From Coq Require Import Lia.
Open Scope nat_scope.

Lemma k_fix_nan_total ii tau : ble (shp tau) (shp ii) -> exists r, k_fix_nan ii tau = Ok r /\ shp r = shp ii.
Proof.
  intros B. unfold k_fix_nan. destruct (nd_any _); [|eauto].
  destruct (map2_total Bool.eqb (map1 xis_nan ii) (map1 xis_zero tau) (shp ii)) as (c & -> & _); [apply ble_refl|exact B|]. cbn [rbind].
  destruct (nd_all c); eauto.
Qed.
Lemma nat_list_eqb_refl l : list_nat_eqb l l = true.
Proof. unfold list_nat_eqb. destruct (list_eq_dec _ l l); [reflexivity|congruence]. Qed.
Lemma nadd_shp a b : shp b = shp a -> exists c, nadd a b = Ok c /\ shp c = shp a.
Proof. intros E. apply map2_eq. rewrite E. apply ble_refl. Qed.
Lemma k_rows_total s v i : shp v = shp s -> (forall x, i = Some x -> shp x = shp s) ->
  exists r, k_rows s v i = Ok r /\ ble (shp s) (shp r).
Proof.
  intros Sv Si. unfold k_rows. destruct (nadd_shp s v Sv) as (t & -> & St). cbn [rbind]. destruct i as [x|].
  - specialize (Si x eq_refl). destruct (nadd_shp t x) as (u & -> & Su); [congruence|]. cbn [rbind]. unfold stack.
    cbn [forallb]. rewrite Su, Sv, Si, St, !nat_list_eqb_refl. cbn [andb]. eexists. split; [reflexivity|]. cbn [shp]. apply ble_app, ble_refl.
  - unfold stack. cbn [forallb]. rewrite Sv, St, !nat_list_eqb_refl. cbn [andb]. eexists. split; [reflexivity|]. cbn [shp]. apply ble_app, ble_refl.
Qed.
Lemma p_calc_ok C fe tau s v ii : p_eval C Tau = Ok (tau, false) -> p_surface C = Ok s -> p_volume C = Ok v -> p_interaction C fe = Ok ii ->
  shp v = shp s -> shp ii = shp s -> exists a, p_calc C fe = Ok a.
Proof.
  intros Et Es Ev Ei Sv Si.
  pose proof (p_surface_inv _ _ Es) as (i0 & mu0 & muex & tau' & srf & norm & bsf & (I1 & I2 & I3 & I4) & _ & _ & _ & K).
  apply k_surface_ble in K.
  pose proof (p_interaction_inv _ _ _ Ei) as (j0 & m0 & e0 & t & o0 & n0 & bb0 & f1 & f2 & (J1 & J2 & J3 & J4) & _ & _ & _ & _ & _ & K0).
  apply k_interaction_ble in K0.
  assert (P : exists x, p_parts C fe = Ok (s, v, x) /\ (forall y, (if c_intQ C then x else None) = Some y -> shp y = shp s)).
  { unfold p_parts. rewrite Et. cbn [rbind]. rewrite Es. cbn [rbind]. rewrite Ev. cbn [rbind]. rewrite Ei, (p_val_eval _ _ _ _ Et). cbn [rbind].
    destruct (c_intQ C).
    - destruct (k_fix_nan_total ii tau) as (y & -> & Sy). { replace t with tau in K0 by (apply p_val_eval in Et; congruence). apply K0. }
      cbn [rbind]. eexists. split; [reflexivity|]. intros z Hz. inversion Hz; subst. congruence.
    - eexists. split; [reflexivity|]. discriminate. }
  destruct P as (x & Hx & Sx). unfold p_calc, p_calc_body. rewrite Hx. cbn [rbind].
  destruct (k_rows_total s v _ Sv Sx) as (r & -> & Br). cbn [rbind].
  destruct (p_convert_total C r i0 mu0 I1 I2) as (a & ->); [eapply ble_trans; [apply K|exact Br]|eapply ble_trans; [apply K|exact Br]|].
  eexists. reflexivity.
Qed.
Lemma conv_shp C v s a i0 mu0 : (let* x := v in p_convert C x) = Ok a -> v = Ok s -> c_I0 C = Ok i0 -> p_mu0 C = Ok mu0 -> ble (shp i0) (shp s) -> ble (shp mu0) (shp s) -> shp a = shp s.
Proof.
  intros H -> Ei Em Bi Bm. cbn [rbind] in H. destruct (p_convert_el _ _ _ H) as (Sh & _); [|exact Sh].
  intros j0 m0 X Y. rewrite Ei in X. rewrite Em in Y. inversion X; inversion Y; subst. auto.
Qed.
(** at the level of the calls *)
Lemma calc_exists w o s v ii tau : good w (OCalc o []) ->
  snd (step w (OSurface o [])) = RetArr s -> snd (step w (OVolume o [])) = RetArr v -> snd (step w (OInteraction o [])) = RetArr ii ->
  obs_param w o Tau tau -> shp tau <> [] -> shp v = shp s -> shp ii = shp s ->
  exists a, snd (step w (OCalc o [])) = RetArr a /\ shp (row a 0) = shp s.
Proof.
  intros G Hs Hv Hi Ht Nt Sv Si.
  assert (Go : forall q, (forall J h, adm1 J h q) -> good w q) by (intros q Hq; eapply good_other; [exact G|]; intros; apply Hq).
  destruct (obj (w_heap w) o) as [r|] eqn:Hr.
  2:{ exfalso. destruct (good_eval w (OSurface o [])) as (_ & E & _); [apply Go; intros; apply adm_nil|].
      rewrite E in Hs. destruct (eval_noobj _ _ _ [] Hr) as (_ & X & _). rewrite X in Hs. discriminate Hs. }
  set (C := conf (w_heap w) r). set (fe := fnev_next (w_heap w) r).
  assert (Hc : at_conf w o C fe) by (exists r; auto).
  rewrite (surface_nil w o C fe) in Hs by (try assumption; apply Go; intros; apply adm_nil).
  rewrite (volume_nil w o C fe) in Hv by (try assumption; apply Go; intros; apply adm_nil).
  rewrite (interaction_nil w o C fe) in Hi by (try assumption; apply Go; intros; apply adm_nil).
  apply (c_param _ _ _ _ _ G Hc) in Ht. destruct (p_val_ex _ _ _ Ht) as [b Et].
  assert (b = false). { destruct b; [|reflexivity]. exfalso. apply Nt. eapply p_eval_num; eassumption. } subst b.
  destruct (p_surface C) as [ss|] eqn:Es; [|discriminate Hs]. destruct (p_volume C) as [vv|] eqn:Ev; [|discriminate Hv].
  destruct (p_interaction C fe) as [xx|] eqn:Ex; [|discriminate Hi]. cbn [rbind] in Hs, Hv, Hi.
  destruct (p_convert C ss) as [s'|] eqn:C1; [|discriminate Hs]. destruct (p_convert C vv) as [v'|] eqn:C2; [|discriminate Hv].
  destruct (p_convert C xx) as [x'|] eqn:C3; [|discriminate Hi]. cbn [outA] in Hs, Hv, Hi. inversion Hs; inversion Hv; inversion Hi; subst s' v' x'.
  pose proof (p_surface_inv _ _ Es) as (i0 & mu0 & muex & tau' & srf & norm & bsf & (I1 & I2 & I3 & I4) & _ & _ & _ & K1). apply k_surface_ble in K1.
  pose proof (p_volume_inv _ _ Ev) as (j0 & m0 & e0 & t & o0 & n0 & bb0 & (J1 & J2 & J3 & J4) & _ & _ & _ & K2). apply k_volume_ble in K2.
  pose proof (p_interaction_inv _ _ _ Ex) as (l0 & q0 & g0 & u & oo0 & nn0 & bbb0 & f1 & f2 & (L1 & L2 & L3 & L4) & _ & _ & _ & _ & _ & K3). apply k_interaction_ble in K3.
  rewrite I1 in J1, L1. rewrite I2 in J2, L2. inversion J1; inversion J2; inversion L1; inversion L2; subst j0 m0 l0 q0.
  assert (A1 : shp s = shp ss) by (eapply (conv_shp C (Ok ss)); [cbn [rbind]; eassumption|reflexivity|eassumption..| |]; apply K1).
  assert (A2 : shp v = shp vv) by (eapply (conv_shp C (Ok vv)); [cbn [rbind]; eassumption|reflexivity|eassumption..| |]; apply K2).
  assert (A3 : shp ii = shp xx) by (eapply (conv_shp C (Ok xx)); [cbn [rbind]; eassumption|reflexivity|eassumption..| |]; apply K3).
  destruct (p_calc_ok C fe tau ss vv xx Et Es Ev Ex) as (a & Ha); [congruence|congruence|].
  exists a. rewrite (calc_nil w o C fe G Hc), Ha. split; [reflexivity|].
  destruct (p_calc_rows _ _ _ Ha) as (tau2 & b2 & isurf & i02 & mu02 & ivol & iint & _ & Es2 & _ & _ & _ & _ & _ & _ & _ & Sa & _).
  rewrite (row_shp _ _ _ 0 Sa). rewrite Es in Es2. inversion Es2; subst. congruence.
Qed.
