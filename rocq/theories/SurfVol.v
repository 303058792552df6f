(** RT1._surface_volume (_calc.py:705-712): the surface and volume contributions added, without the interaction contribution.
    The widget Analyze draws it as a dashed line when R.int_Q is True (plot.py:561-562). *)
From Verif Require Export NumProps CalcOk Progress.
Open Scope nat_scope. Open Scope list_scope.

(** _calc.py:705-712 _surface_volume *)
Definition m_surface_volume (o : nat) : M (nd xr) :=
  do s <- m_surface o ;; do v <- m_volume o ;; do t <- lift (nadd s v) ;; m_convert o t.

Definition p_surface_volume (C : config) : res (nd xr) :=
  let* s := p_surface C in let* v := p_volume C in let* t := nadd s v in p_convert C t.
Lemma at_surface_volume h0 C fe o : pure_at h0 C fe o (m_surface_volume o) (p_surface_volume C).
Proof.
  unfold m_surface_volume, p_surface_volume. apply at_bind; [apply at_surface|intros ? _]. apply at_bind; [apply at_volume|intros ? _].
  apply at_bind; [apply at_lift|intros ? _]. apply at_convert.
Qed.
Lemma sim_surface_volume J o : simM J (m_surface_volume o).
Proof. unfold m_surface_volume. simgo. Qed.

(** without caches nothing is written *)
Definition still {A} (m : M A) : Prop := forall u, w_on u = false -> fst (m u) = u.
Lemma still_pure {A} (m : M A) f : pureU m f -> still m.
Proof. intros H u Hu. now rewrite H. Qed.
Lemma still_bind {A B} (m : M A) (k : A -> M B) : still m -> (forall a, still (k a)) -> still (bind m k).
Proof.
  intros Hm Hk u Hu. unfold bind. specialize (Hm u Hu). destruct (m u) as [u' [a|e]]; cbn [fst] in *; subst u'; [now apply Hk|reflexivity].
Qed.
Lemma still_eval o p : still (eval_param o p).
Proof.
  unfold eval_param. apply still_bind; [eapply still_pure, pure_funcs|]. intros [c|].
  - apply still_bind; [eapply still_pure, pure_symbs|intros syms]. apply still_bind; [eapply still_pure, pure_get_obj|intros r].
    apply still_bind; [eapply still_pure, pureU_gets|intros [a|e]]; [eapply still_pure, pureU_ret|].
    destruct (filter _ _); eapply still_pure, pureU_fail.
  - apply still_bind; [eapply still_pure, pure_get_obj|intros r]. destruct (r_def r p); try (eapply still_pure, pureU_fail).
    apply still_bind; [eapply still_pure, pureU_gets|intros a]. eapply still_pure, pureU_ret.
Qed.
Lemma still_val o p : still (param_val o p).
Proof. apply still_bind; [apply still_eval|intros a]. eapply still_pure, pureU_ret. Qed.
Lemma still_scat o x : still (obj_scat_calc o x).
Proof.
  unfold obj_scat_calc. do 4 (apply still_bind; [eapply still_pure, pure_m_ang|intros ?]). apply still_bind; [eapply still_pure, pure_get_obj|intros r].
  apply still_bind; [eapply still_pure, pureU_gets|intros kw]. unfold scat_calc. apply still_bind; [eapply still_pure, pure_lambda|intros c]. eapply still_pure, pureU_lift.
Qed.
Lemma still_surface_volume o : still (m_surface_volume o).
Proof.
  assert (L : forall A (x : res A), still (lift x)) by (intros; eapply still_pure, pureU_lift).
  assert (I0 : still (get_I0 o)) by (eapply still_pure, pure_get_I0). assert (M0 : still (mu_0 o)) by (eapply still_pure, pure_mu_0). assert (M1 : still (mu_ex o)) by (eapply still_pure, pure_mu_ex).
  pose proof (still_val o) as V. pose proof (still_scat o) as S.
  unfold m_surface_volume, m_surface, m_volume, m_convert.
  repeat first [apply L | exact I0 | exact M0 | exact M1 | apply V | apply S | (eapply still_pure, pure_get_obj) | match goal with |- still (if ?b then _ else _) => destruct b end | (apply still_bind; [|intros ?])].
Qed.

(** ** The value, and the effect on later calls *)
Section AfterHistory.
  Context (w : world) (o : nat) (p : op) (G : good w p).
  Lemma surface_volume_value C fe : at_conf w o C fe -> snd (m_surface_volume o w) = p_surface_volume C.
  Proof.
    intros (r & Hr & HC & Hf). destruct G as (seng & ps & Ha & E). apply adm_app in Ha. destruct Ha as [Ha _].
    destruct (run_Sim ps [] _ _ (Sim_init seng) (HB_init seng) Ha) as [HS _]. rewrite <- E in HS. apply Sim_bare in HS.
    destruct (sim_surface_volume _ o _ _ HS) as [X _]. rewrite X. unfold obj in Hr. destruct (nth_error _ _) as [r0|] eqn:Hn; [|discriminate]. inversion Hr; subst r0.
    destruct (at_surface_volume (w_heap w) C fe o (h_objs (w_heap w)) (fun _ => []) r Hn (eq_sym HC) (eq_sym Hf)) as (r' & Y & _).
    assert (Eb : bare (w_heap w) = mk_world (set_objs (w_heap w) (h_objs (w_heap w))) false (fun _ => [])) by (now destruct (w_heap w)).
    rewrite Eb, Y. reflexivity.
  Qed.
End AfterHistory.
Lemma runs_agree qs : forall J w1 w2 u, Sim J w1 u -> Sim J w2 u -> HB (w_heap w1) -> adm J w1 qs -> snd (run w2 qs) = snd (run w1 qs).
Proof.
  induction qs as [|q qs IH]; intros J w1 w2 u S1 S2 Hb Ha; [reflexivity|]. destruct Ha as [A1 A2].
  assert (Eh : w_heap w2 = w_heap w1) by (destruct S1 as (_ & _ & E1 & _), S2 as (_ & _ & E2 & _); congruence).
  destruct (step_sim J w1 u q S1 Hb A1) as [E1 T1]. destruct (step_sim J w2 u q S2) as [E2 T2]; [now rewrite Eh|now rewrite Eh|].
  rewrite !run_cons. cbn [snd]. f_equal; [congruence|]. apply (IH _ _ _ _ T1 T2); [apply step_HB, Hb|exact A2].
Qed.
Lemma surface_volume_silent seng ps qs o : adm [] (init seng true) (ps ++ qs) ->
  let w := fst (run (init seng true) ps) in
  w_heap (fst (m_surface_volume o w)) = w_heap w /\ snd (run (fst (m_surface_volume o w)) qs) = snd (run w qs).
Proof.
  intros Ha w. apply adm_app in Ha. destruct Ha as [Ha Hq]. fold w in Hq.
  destruct (run_Sim ps [] _ _ (Sim_init seng) (HB_init seng) Ha) as [HS Hb]. fold w in HS, Hb. apply Sim_bare in HS.
  destruct (sim_surface_volume _ o _ _ HS) as [_ T]. rewrite (still_surface_volume o (bare (w_heap w)) eq_refl) in T.
  split; [apply T|]. exact (runs_agree qs _ w _ _ HS T Hb Hq).
Qed.

(** without the interaction contribution calc() succeeds, with the dashed line as the total *)
Definition no_int (C : config) : config :=
  mk_conf (c_backend C) (c_seng C) (c_V C) (c_SRF C) false (c_sig0 C) (c_dB C) (c_fnin C) (c_fnevin C) (c_I0 C) (c_def C) (c_params C) (c_mono C) (c_ang C) (c_geom C).
Lemma conf_no_int h r sg db : r_sig0 r = sg -> r_dB r = db -> conf h (with_flags r false sg db) = no_int (conf h r).
Proof. intros <- <-. reflexivity. Qed.
Lemma p_calc_no_int C fe fe' a tau : p_calc C fe = Ok a -> p_eval C Tau = Ok (tau, false) ->
  exists b y, p_calc (no_int C) fe' = Ok b /\ p_surface_volume C = Ok y /\ same_arr (row b 0) y /\ same_arr (row b 1) (row a 1) /\ same_arr (row b 2) (row a 2).
Proof.
  intros H Ht. destruct (p_calc_rows _ _ _ H) as (tau' & b' & s & i0 & mu0 & v & x & Et & Es & Ei & Em & Bi & Bm & Sv & Hv & _ & Sa & Hget).
  rewrite Ht in Et. inversion Et; subst tau' b'. unfold off in Hv. cbn [andb] in Hv.
  destruct (nadd_shp s v Sv) as (t & Hsum & St).
  assert (Sum : forall i, valid_idx (shp s) i -> get t i = xadd (get s i) (get v i)).
  { intros i Hi. rewrite <- (bget_valid t) by congruence. unfold nadd in Hsum. rewrite (bget_map2 _ _ _ _ i Hsum), !bget_valid by congruence. reflexivity. }
  destruct (p_convert_total C t i0 mu0 Ei Em) as (y & Hy); [congruence|congruence|].
  destruct (p_convert_el C t y Hy) as (Sy & _ & Hel); [intros ? ? X Y; rewrite Ei in X; rewrite Em in Y; inversion X; inversion Y; subst; rewrite St; auto|].
  assert (exists b, p_calc (no_int C) fe' = Ok b) as (b & Hb).
  { destruct (stack_shp [t; s; v] (shp s)) as (rows & Hrows & Sr); [discriminate|repeat constructor; assumption|].
    assert (exists b, p_convert C rows = Ok b) as (b & Hb).
    { apply (p_convert_total C rows i0 mu0 Ei Em); rewrite Sr; apply ble_app; assumption. }
    exists b. unfold p_calc, p_calc_body, p_parts.
    change (p_eval (no_int C) Tau) with (p_eval C Tau). change (p_surface (no_int C)) with (p_surface C). change (p_volume (no_int C)) with (p_volume C).
    rewrite Ht. cbn [rbind]. rewrite Es. cbn [rbind]. rewrite Hv. cbn [rbind c_intQ no_int]. unfold k_rows. rewrite Hsum. cbn [rbind]. rewrite Hrows. cbn [rbind].
    change (p_convert (no_int C) rows) with (p_convert C rows). rewrite Hb. reflexivity. }
  exists b, y. split; [exact Hb|]. split; [unfold p_surface_volume; rewrite Es; cbn [rbind]; rewrite Hv; cbn [rbind]; rewrite Hsum; cbn [rbind]; exact Hy|].
  destruct (p_calc_rows _ _ _ Hb) as (tau2 & b2 & s2 & i2 & m2 & v2 & x2 & Et2 & Es2 & Ei2 & Em2 & _ & _ & _ & Hv2 & _ & Sb & Hget2).
  change (p_eval (no_int C) Tau) with (p_eval C Tau) in Et2. change (p_surface (no_int C)) with (p_surface C) in Es2. change (p_volume (no_int C)) with (p_volume C) in Hv2.
  change (c_I0 (no_int C)) with (c_I0 C) in Ei2. change (p_mu0 (no_int C)) with (p_mu0 C) in Em2.
  assert (b2 = false) by congruence. subst b2. unfold off in Hv2. cbn [andb] in Hv2.
  assert (s2 = s) by congruence. assert (i2 = i0) by congruence. assert (m2 = mu0) by congruence. assert (v2 = v) by congruence. subst s2 i2 m2 v2.
  cbn [c_sig0 c_dB c_intQ no_int] in Hget2.
  repeat split; rewrite ?(row_shp _ _ _ _ Sb), ?(row_shp _ _ _ _ Sa); try congruence; intros i Hi; cbn [row get];
    destruct (Hget2 i Hi) as (K1 & K2 & _ & K0); destruct (Hget i Hi) as (L1 & L2 & _).
  - rewrite K0, (Hel i i0 mu0 Ei Em) by (rewrite St; exact Hi). now rewrite Sum.
  - now rewrite K1, L1.
  - now rewrite K2, L2.
Qed.
