(** C39: what needs ncoefs and what happens if they are missing. *)
From Coq Require Import Permutation.
From Verif Require Export Ncoefs Properties11.
Open Scope string_scope.
Open Scope nat_scope.
Open Scope list_scope.

(** two objects with the same configuration, except that V and SRF are compared after applying [f] to those of
    the first and [g] to those of the second *)
Definition same_up_to (f g : scat -> scat) (w1 : world) (o1 : nat) (w2 : world) (o2 : nat) : Prop :=
  exists r1 r2, obj (w_heap w1) o1 = Ok r1 /\ obj (w_heap w2) o2 = Ok r2 /\
    h_be (w_heap w1) = h_be (w_heap w2) /\ h_seng (w_heap w1) = h_seng (w_heap w2) /\
    res_map f (scat_at (w_heap w1) (r_V r1)) = res_map g (scat_at (w_heap w2) (r_V r2)) /\
    res_map f (scat_at (w_heap w1) (r_SRF r1)) = res_map g (scat_at (w_heap w2) (r_SRF r2)) /\
    r_intQ r1 = r_intQ r2 /\ r_sig0 r1 = r_sig0 r2 /\ r_dB r1 = r_dB r2 /\ r_fn_input r1 = r_fn_input r2 /\
    r_fnevals_input r1 = None /\ r_fnevals_input r2 = None /\
    deref (w_heap w1) (r_I0 r1) = deref (w_heap w2) (r_I0 r2) /\
    (forall p, cdef_of (w_heap w1) (r_def r1 p) = cdef_of (w_heap w2) (r_def r2 p)) /\
    r_geom r1 = r_geom r2 /\ (forall a, snd (step w1 (OReadAngle o1 a)) = snd (step w2 (OReadAngle o2 a))) /\
    (exists d1 d2, snd (step w1 (OParamDict o1)) = RetDict d1 /\ snd (step w2 (OParamDict o2)) = RetDict d2 /\ forall s, dget d1 s = dget d2 s).
(** the same, apart from ncoefs *)
Definition same_but_ncoefs := same_up_to forget forget.
(** the second is the first with every missing ncoefs set to [n] *)
Definition completed_with (n : nat) := same_up_to (with_ncoefs n) (fun s => s).

Lemma same_up_to_setup f g w1 q1 o1 w2 q2 o2 : good w1 q1 -> good w2 q2 -> same_up_to f g w1 o1 w2 o2 ->
  exists r1 r2 d1 d2, obj (w_heap w1) o1 = Ok r1 /\ obj (w_heap w2) o2 = Ok r2 /\
    r_fnevals_input r1 = None /\ r_fnevals_input r2 = None /\ r_intQ r1 = r_intQ r2 /\
    same_setup (mapC f (conf (w_heap w1) r1)) (mapC g (conf (w_heap w2) r2)) d1 d2.
Proof.
  intros G1 G2 (r1 & r2 & H1 & H2 & Eb & Eg & EV & ES & Eq & Es & Ed & Ef & N1 & N2 & Ei & Edf & Egm & Ea & d1 & d2 & P1 & P2 & M).
  exists r1, r2, d1, d2. do 5 (split; [assumption|]).
  apply (obs_dict_conf w1 _ o1 r1 G1 H1) in P1. apply (obs_dict_conf w2 _ o2 r2 G2 H2) in P2.
  assert (R : forall a, p_read (conf (w_heap w2) r2) a = p_read (conf (w_heap w1) r1) a).
  { intros a. specialize (Ea a). rewrite (read_eval w1 _ G1 (OReadAngle o1 a) I), (read_eval w2 _ G2 (OReadAngle o2 a) I) in Ea.
    rewrite (eval_angle _ _ _ _ H1), (eval_angle _ _ _ _ H2) in Ea. unfold outA in Ea. destruct (p_read _ a), (p_read _ a); congruence. }
  assert (K1 : NoDup (dkeys d1)).
  { rewrite (p_params_keys _ _ P1). cbn [conf c_params]. rewrite dkeys_map. exact (proj1 (proj2 (proj1 (good_keys _ _ G1)) o1 r1 H1)). }
  assert (K2 : NoDup (dkeys d2)).
  { rewrite (p_params_keys _ _ P2). cbn [conf c_params]. rewrite dkeys_map. exact (proj1 (proj2 (proj1 (good_keys _ _ G2)) o2 r2 H2)). }
  pose proof (same_map_perm _ _ K1 K2 M) as Pm.
  constructor; try (symmetry; assumption); try assumption; try (cbn [mapC conf c_backend c_seng c_V c_SRF c_intQ c_sig0 c_dB c_fnin c_I0 c_geom]; congruence).
  - intros p. cbn [mapC conf c_def]. symmetry. apply Edf.
  - split; apply Permutation_NoDup, Permutation_app_head; unfold dkeys; apply Permutation_map; [exact Pm|now symmetry].
  - intros t0 tex p0 pex _ _ _ _. apply bc_shapes_set; apply incl_map; intros x; rewrite !in_app_iff; intros [X|X]; auto; right; revert X; unfold dvals;
      apply Permutation_in, Permutation_map; [exact Pm|now symmetry].
Qed.

(** *** C39, first half.  calc() with int_Q=False, surface() and volume() do not depend on ncoefs: they give the
    same result (values or exception) whatever ncoefs are given, or none. *)
Theorem C39_no_interaction_needs_no_ncoefs : forall w1 o1 w2 o2 sg db,
  good w1 (OCalc o1 nil) -> good w2 (OCalc o2 nil) -> same_but_ncoefs w1 o1 w2 o2 -> obs_flags w1 o1 false sg db ->
  snd (step w1 (OCalc o1 nil)) = snd (step w2 (OCalc o2 nil)).
Proof.
  intros w1 o1 w2 o2 sg db G1 G2 SC Fl.
  destruct (same_up_to_setup _ _ _ _ _ _ _ _ G1 G2 SC) as (r1 & r2 & d1 & d2 & H1 & H2 & N1 & N2 & Q & S).
  destruct Fl as (r & Hr & Q1 & _). assert (r = r1) by congruence. subst r.
  rewrite (calc_nil _ _ _ _ G1 (ex_intro _ r1 (conj H1 (conj eq_refl eq_refl)))), (calc_nil _ _ _ _ G2 (ex_intro _ r2 (conj H2 (conj eq_refl eq_refl)))).
  f_equal.
  rewrite <- (mc_calc forget phase_forget (conf (w_heap w1) r1) (p_fnev (mapC forget (conf (w_heap w1) r1)))) by assumption.
  rewrite <- (mc_calc forget phase_forget (conf (w_heap w2) r2) (p_fnev (mapC forget (conf (w_heap w2) r2)))) by (cbn [conf c_intQ]; congruence).
  symmetry. apply (s_calc _ _ _ _ S); assumption.
Qed.
Print Assumptions C39_no_interaction_needs_no_ncoefs.
Theorem C39_surface_needs_no_ncoefs : forall w1 o1 w2 o2,
  good w1 (OSurface o1 nil) -> good w2 (OSurface o2 nil) -> same_but_ncoefs w1 o1 w2 o2 ->
  snd (step w1 (OSurface o1 nil)) = snd (step w2 (OSurface o2 nil)).
Proof.
  intros w1 o1 w2 o2 G1 G2 SC.
  destruct (same_up_to_setup _ _ _ _ _ _ _ _ G1 G2 SC) as (r1 & r2 & d1 & d2 & H1 & H2 & N1 & N2 & Q & S).
  rewrite (surface_nil _ _ _ _ G1 (ex_intro _ r1 (conj H1 (conj eq_refl eq_refl)))), (surface_nil _ _ _ _ G2 (ex_intro _ r2 (conj H2 (conj eq_refl eq_refl)))).
  rewrite <- (mc_surface forget phase_forget (conf (w_heap w1) r1)), <- (mc_surface forget phase_forget (conf (w_heap w2) r2)), (s_surface _ _ _ _ S).
  destruct (p_surface _) as [v|]; [cbn [rbind]|reflexivity]. f_equal. symmetry. exact (s_convert _ _ _ _ S v).
Qed.
Print Assumptions C39_surface_needs_no_ncoefs.
Theorem C39_volume_needs_no_ncoefs : forall w1 o1 w2 o2,
  good w1 (OVolume o1 nil) -> good w2 (OVolume o2 nil) -> same_but_ncoefs w1 o1 w2 o2 ->
  snd (step w1 (OVolume o1 nil)) = snd (step w2 (OVolume o2 nil)).
Proof.
  intros w1 o1 w2 o2 G1 G2 SC.
  destruct (same_up_to_setup _ _ _ _ _ _ _ _ G1 G2 SC) as (r1 & r2 & d1 & d2 & H1 & H2 & N1 & N2 & Q & S).
  rewrite (volume_nil _ _ _ _ G1 (ex_intro _ r1 (conj H1 (conj eq_refl eq_refl)))), (volume_nil _ _ _ _ G2 (ex_intro _ r2 (conj H2 (conj eq_refl eq_refl)))).
  rewrite <- (mc_volume forget phase_forget (conf (w_heap w1) r1)), <- (mc_volume forget phase_forget (conf (w_heap w2) r2)), (s_volume _ _ _ _ S).
  destruct (p_volume _) as [v|]; [cbn [rbind]|reflexivity]. f_equal. symmetry. exact (s_convert _ _ _ _ S v).
Qed.
Print Assumptions C39_volume_needs_no_ncoefs.

(** ** int_Q=True *)
Lemma id_mapC C : mapC (fun s => s) C = C.
Proof. destruct C. unfold mapC, res_map. cbn. f_equal; [now destruct c_V|now destruct c_SRF]. Qed.

(** the interaction term of a configuration that lacks ncoefs *)
Definition lacking (C : config) : Prop :=
  exists v s, c_V C = Ok v /\ c_SRF C = Ok s /\ (lacks_ncoefs v = true \/ lacks_ncoefs s = true).
Lemma nmax_lacks n C k : lacking C -> p_nmax (mapC (with_ncoefs n) C) = Ok k -> p_nmax C = Err AttributeError.
Proof.
  intros (v & s & Ev & Es & L). unfold p_nmax. cbn [mapC c_V c_SRF]. rewrite Ev, Es. cbn [res_map rbind]. intros E.
  destruct (ncoefs (with_ncoefs n v)) as [a|] eqn:Ea; [cbn [rbind] in E|discriminate].
  destruct (ncoefs (with_ncoefs n s)) as [b|] eqn:Eb; [cbn [rbind] in E|discriminate].
  destruct (lacks_ncoefs v) eqn:Lv; [now rewrite (ncoefs_lacks _ _ _ Ea Lv)|]. rewrite (with_full n v Lv) in Ea. rewrite Ea. cbn [rbind].
  destruct L as [L|L]; [discriminate|]. now rewrite (ncoefs_lacks _ _ _ Eb L).
Qed.
Lemma Fint_lacks n C first F : lacking C -> c_intQ C = true -> c_fnevin C = None ->
  p_Fint (mapC (with_ncoefs n) C) (p_fnev (mapC (with_ncoefs n) C)) first = Ok F -> p_Fint C (p_fnev C) first = Err AttributeError.
Proof.
  intros L Q Fi. set (D := mapC (with_ncoefs n) C). unfold p_Fint. change (p_params D) with (p_params C).
  unfold D at 1 2 3 4. rewrite !mc_read.
  destruct (p_read C T0) as [t0|]; [cbn [rbind]|discriminate]. destruct (p_read C P0) as [p0|]; [cbn [rbind]|discriminate].
  destruct (p_read C TEx) as [tex|]; [cbn [rbind]|discriminate]. destruct (p_read C PEx) as [pex|]; [cbn [rbind]|discriminate].
  destruct (p_params C) as [kw|]; [cbn [rbind]|discriminate]. destruct (broadcast_arrays _) as [args|]; [cbn [rbind]|discriminate].
  unfold p_fnev. change (c_fnevin D) with (c_fnevin C). change (c_intQ D) with (c_intQ C). rewrite Fi, Q.
  destruct (p_comp D (p_fn D)) as [[k|]|] eqn:Ec; cbn [rbind]; try discriminate.
  destruct (call k args []) as [fns|] eqn:Ek; [cbn [rbind]|discriminate].
  destruct (p_nmax D) as [nm|] eqn:En; [cbn [rbind]|discriminate]. intros _.
  pose proof (nmax_lacks _ _ _ L En) as Nm.
  assert (X : p_comp C (p_fn C) = Ok (Some k) \/ p_comp C (p_fn C) = Err AttributeError).
  { unfold p_fn in *. change (c_fnin D) with (c_fnin C) in Ec. destruct (c_fnin C) as [f|]; [left; exact Ec|]. right.
    change (c_intQ D) with (c_intQ C) in Ec. rewrite Q in *. destruct L as (v & s & Ev & Es & L). unfold D in Ec. cbn [mapC c_V c_SRF c_geom] in Ec.
    rewrite Ev, Es in *. cbn [res_map rbind] in Ec |- *. destruct (calc_fn (with_ncoefs n v) (with_ncoefs n s) (c_geom C)) as [f|] eqn:Ef; [|discriminate].
    now rewrite (calc_fn_lacks _ _ _ _ _ Ef L). }
  destruct X as [X|X]; rewrite X; cbn [rbind]; [|reflexivity]. rewrite Ek. cbn [rbind]. now rewrite Nm.
Qed.
Lemma interaction_lacks n C a : lacking C -> c_intQ C = true -> c_fnevin C = None ->
  p_interaction (mapC (with_ncoefs n) C) (p_fnev (mapC (with_ncoefs n) C)) = Ok a -> p_interaction C (p_fnev C) = Err AttributeError.
Proof.
  intros L Q Fi. unfold p_interaction. destruct (p_Fint (mapC (with_ncoefs n) C) _ true) as [F|] eqn:E; [|discriminate]. intros _.
  now rewrite (Fint_lacks _ _ _ _ L Q Fi E).
Qed.
Lemma calc_lacks n C a : lacking C -> c_intQ C = true -> c_fnevin C = None -> (forall t, p_eval C Tau = Ok (t, true) -> xgt0 (get t []) = true) ->
  p_calc (mapC (with_ncoefs n) C) (p_fnev (mapC (with_ncoefs n) C)) = Ok a -> p_calc C (p_fnev C) = Err AttributeError.
Proof.
  intros L Q Fi Ht H. set (D := mapC (with_ncoefs n) C) in *.
  assert (B : exists b, p_calc_body D (p_fnev D) = Ok b).
  { unfold p_calc, p_handle in H. destruct (p_calc_body D (p_fnev D)) as [b|e]; [eauto|]. destruct e; try discriminate; destruct (p_missing D) as [[|]|]; discriminate. }
  destruct B as [b B]. assert (Y : p_calc_body C (p_fnev C) = Err AttributeError); [|unfold p_calc; now rewrite Y].
  unfold p_calc_body in *. assert (Z : p_parts C (p_fnev C) = Err AttributeError); [|now rewrite Z].
  destruct (p_parts D (p_fnev D)) as [x|] eqn:Ep; [clear B H|discriminate]. revert Ep. unfold p_parts.
  unfold D at 1. rewrite (mc_eval (with_ncoefs n) C Tau). change (c_intQ D) with (c_intQ C). rewrite Q.
  rewrite (mc_surface _ (phase_with n) C : p_surface D = _), (mc_volume _ (phase_with n) C : p_volume D = _).
  destruct (p_eval C Tau) as [[t isn]|]; [cbn [rbind]|discriminate]. destruct (p_surface C) as [sf|]; [cbn [rbind]|destruct isn; discriminate].
  destruct isn.
  - rewrite (Ht t eq_refl). destruct (p_volume C) as [vf|]; [cbn [rbind]|discriminate].
    destruct (p_interaction D (p_fnev D)) as [y|] eqn:Ey; [|discriminate]. intros _. now rewrite (interaction_lacks _ _ _ L Q Fi Ey).
  - destruct (p_volume C) as [vf|]; [cbn [rbind]|discriminate].
    destruct (p_interaction D (p_fnev D)) as [y|] eqn:Ey; [|discriminate]. intros _. now rewrite (interaction_lacks _ _ _ L Q Fi Ey).
Qed.

(** V or SRF of the object lacks ncoefs *)
Definition obj_lacks_ncoefs (w : world) (o : nat) : Prop :=
  exists r v s, obj (w_heap w) o = Ok r /\ scat_at (w_heap w) (r_V r) = Ok v /\ scat_at (w_heap w) (r_SRF r) = Ok s /\ (lacks_ncoefs v = true \/ lacks_ncoefs s = true).

(** *** C39, second half.  calc() with int_Q=True raises AttributeError if an ncoefs is missing and the same call would
    succeed with the missing ncoefs given; unless tau is a number <= 0, when the interaction term is skipped. *)
Theorem C39_missing_ncoefs_raises : forall w1 o1 w2 o2 n sg db a,
  tidy w1 (OCalc o1 nil) -> tidy w2 (OCalc o2 nil) -> completed_with n w1 o1 w2 o2 -> names_current w1 o1 -> names_current w2 o2 ->
  obs_flags w1 o1 true sg db -> obj_lacks_ncoefs w1 o1 ->
  (forall t, obs_param w1 o1 Tau t -> shp t <> nil \/ xgt0 (get t nil) = true) ->
  snd (step w2 (OCalc o2 nil)) = RetArr a ->
  snd (step w1 (OCalc o1 nil)) = Raised AttributeError.
Proof.
  intros w1 o1 w2 o2 n sg db a T1 T2 SC U1 U2 Fl (rl & v & s & Hl & Ov & Os & L) Ht E. pose proof (tidy_good _ _ T1) as G1. pose proof (tidy_good _ _ T2) as G2.
  destruct (same_up_to_setup _ _ _ _ _ _ _ _ G1 G2 SC) as (r1 & r2 & d1 & d2 & H1 & H2 & N1 & N2 & Q & S). rewrite id_mapC in S.
  destruct Fl as (r & Hr & Q1 & _). assert (r = r1) by congruence. subst r. assert (rl = r1) by congruence. subst rl.
  apply (up_to_date_current _ _ _ H1) in U1. apply (up_to_date_current _ _ _ H2) in U2.
  rewrite (calc_nil _ _ _ _ G2 (ex_intro _ r2 (conj H2 (conj eq_refl eq_refl)))) in E.
  rewrite (calc_nil _ _ _ _ G1 (ex_intro _ r1 (conj H1 (conj eq_refl eq_refl)))).
  destruct (good_keys _ _ G1) as [K1 B1]. destruct (good_keys _ _ G2) as [K2 B2]. destruct (tidy_inv _ _ T1) as (F1 & _). destruct (tidy_inv _ _ T2) as (F2 & _).
  rewrite (fnev_fresh _ _ (F1 o1 r1 H1) (proj2 K1 o1 r1 H1) B1 Q1 U1).
  rewrite (fnev_fresh _ _ (F2 o2 r2 H2) (proj2 K2 o2 r2 H2) B2 (eq_trans (eq_sym Q) Q1) U2), (s_calc _ _ _ _ S N1 N2) in E.
  set (C := conf (w_heap w1) r1) in *. 
  destruct (p_calc (mapC (with_ncoefs n) C) (p_fnev (mapC (with_ncoefs n) C))) as [b|] eqn:Eb; [|discriminate].
  rewrite (calc_lacks n C b); [reflexivity| |exact Q1|exact N1| |exact Eb].
  - exists v, s. auto.
  - intros t Et. destruct (Ht t) as [X|X]; [| |assumption].
    + apply (obs_param_conf w1 _ o1 r1 G1 H1). unfold p_val. fold C. now rewrite Et.
    + destruct X. eapply p_eval_num; exact Et.
Qed.
Print Assumptions C39_missing_ncoefs_raises.

(** ** Witnesses: a linear combination of Rayleigh and Henyey-Greenstein, the latter without or with ncoefs *)
Definition histN (nc : option nat) (iq : bool) : list op :=
  [ ONewScat (LinComb [(ENum (1#2), VRay a_vol); (ENum (1#2), VHG (ESym "t") nc a_vol)] a_vol); ONewScat (SIso a_srf);
    ONew (Some 0) (Some 1) iq true false None None (PNum (Fin 2));
    ONewArr (mk_nd [2] (fun i => Fin (match i with [0] => 1/2 | _ => 1 end)));
    OSetGeometry 0 [("t_0", Some (PArr 0)); ("p_0", Some (PNum (Fin 0)))];
    OUpdate 0 [("tau", PArr 0); ("omega", PNum (Fin (1/3))); ("NormBRDF", PNum (Fin (1/4))); ("t", PNum (Fin (1/4)))] ].
Definition wN (nc : option nat) (iq : bool) : world := fst (run (init true true) (histN nc iq)).
Lemma wN_adm nc iq p : (forall J h, adm1 J h p) -> adm nil (init true true) (histN nc iq ++ [p]).
Proof. intros H. unfold histN. cbn [app]. repeat (split; [try exact I|]); try exact I; try apply H. intros []. Qed.
Lemma wN_good nc iq p : (forall J h, adm1 J h p) -> good (wN nc iq) p.
Proof. intros H. exists true, (histN nc iq). split; [now apply wN_adm|reflexivity]. Qed.
Lemma wN_tidy nc iq : tidy (wN nc iq) (OCalc 0 nil).
Proof.
  exists true, (histN nc iq). split; [apply wN_adm; intros; apply adm_nil|]. split; [|reflexivity].
  unfold histN; cbn [app]; repeat (constructor; [split; [intros []|first [exact I|discriminate]]|]); constructor.
Qed.
Example C39_no_interaction_nonvacuous : exists w1 w2 a,
  good w1 (OCalc 0 nil) /\ good w2 (OCalc 0 nil) /\ same_but_ncoefs w1 0 w2 0 /\ obs_flags w1 0 false true false /\ obj_lacks_ncoefs w1 0 /\
  snd (step w1 (OCalc 0 nil)) = RetArr a.
Proof.
  assert (A : is_arr (snd (step (wN None false) (OCalc 0 nil))) = true) by (vm_compute; reflexivity). destruct (is_arr_ex _ A) as [a Ha].
  exists (wN None false), (wN (Some 2) false), a. split; [apply wN_good; intros; apply adm_nil|]. split; [apply wN_good; intros; apply adm_nil|].
  split; [|split; [|split; [|exact Ha]]].
  - eexists; eexists. split; [vm_compute; reflexivity|]. split; [vm_compute; reflexivity|]. do 14 (split; [first [vm_compute; reflexivity|intros []; vm_compute; reflexivity]|]).
    eexists; eexists. split; [vm_compute; reflexivity|]. split; [vm_compute; reflexivity|]. reflexivity.
  - eexists. split; [vm_compute; reflexivity|]. auto.
  - eexists; eexists; eexists. split; [vm_compute; reflexivity|]. split; [vm_compute; reflexivity|]. split; [vm_compute; reflexivity|]. left. reflexivity.
Qed.
Example C39_missing_ncoefs_nonvacuous : exists w1 w2 a,
  tidy w1 (OCalc 0 nil) /\ tidy w2 (OCalc 0 nil) /\ completed_with 2 w1 0 w2 0 /\ names_current w1 0 /\ names_current w2 0 /\
  obs_flags w1 0 true true false /\ obj_lacks_ncoefs w1 0 /\
  (forall t, obs_param w1 0 Tau t -> shp t <> nil \/ xgt0 (get t nil) = true) /\
  snd (step w2 (OCalc 0 nil)) = RetArr a /\ snd (step w1 (OCalc 0 nil)) = Raised AttributeError.
Proof.
  assert (A : exists a, snd (step (wN (Some 2) true) (OCalc 0 nil)) = RetArr a).
  { apply calc_vm; [apply wN_good; intros; apply adm_nil|]. vm_compute. reflexivity. }
  destruct A as [a Ha]. exists (wN None true), (wN (Some 2) true), a.
  assert (Ht : forall t, obs_param (wN None true) 0 Tau t -> shp t <> nil \/ xgt0 (get t nil) = true).
  { intros t H. left. assert (X : out_shape (wN None true) (OReadParam 0 Tau) = Some [2]) by (vm_compute; reflexivity).
    unfold out_shape in X. unfold obs_param in H. rewrite H in X. inversion X as [Y]. rewrite Y. discriminate. }
  assert (SC : completed_with 2 (wN None true) 0 (wN (Some 2) true) 0).
  { eexists; eexists. split; [vm_compute; reflexivity|]. split; [vm_compute; reflexivity|]. do 14 (split; [first [vm_compute; reflexivity|intros []; vm_compute; reflexivity]|]).
    eexists; eexists. split; [vm_compute; reflexivity|]. split; [vm_compute; reflexivity|]. reflexivity. }
  assert (U : forall nc, names_current (wN nc true) 0) by (intros nc; left; eexists; split; [vm_compute; reflexivity|reflexivity]).
  assert (Fl : obs_flags (wN None true) 0 true true false) by (eexists; split; [vm_compute; reflexivity|auto]).
  assert (L : obj_lacks_ncoefs (wN None true) 0).
  { eexists; eexists; eexists. split; [vm_compute; reflexivity|]. split; [vm_compute; reflexivity|]. split; [vm_compute; reflexivity|]. left. reflexivity. }
  do 8 (split; [first [apply wN_tidy|apply U|assumption]|]). split; [exact Ha|].
  exact (C39_missing_ncoefs_raises _ _ _ _ 2 _ _ a (wN_tidy _ _) (wN_tidy _ _) SC (U _) (U _) Fl L Ht Ha).
Qed.
