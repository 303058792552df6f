(** Shapes: C21. *)
From Verif Require Export Progress Properties19.
From Coq Require Import Lia List.
Open Scope string_scope.
Open Scope nat_scope.
Open Scope list_scope.

(** every input of the evaluation can be read, and numpy can broadcast it to the shape [T] *)
Definition inputs_fit (w : world) (o : nat) (T : list nat) : Prop :=
  (forall b, exists a, obs_angle w o b a /\ ble (shp a) T) /\
  (forall p, exists a, obs_param w o p a /\ ble (shp a) T) /\
  (exists a, obs_I0 w o a /\ ble (shp a) T) /\
  exists d, snd (step w (OParamDict o)) = RetDict d /\ forall k a, In (k, a) d -> ble (shp a) T.
(** the distribution function is one of the predefined ones or a linear combination of them, with a positive
    number of coefficients; its parameters have ordinary names and are given *)
Definition evaluable (w : world) (o : nat) (s : scat) : Prop :=
  Forall is_basic (members s) /\ (exists n, ncoefs s = Ok n /\ 0 < n) /\
  forall x, In x (scat_syms s) -> ~ In x reserved /\ exists d a, snd (step w (OParamDict o)) = RetDict d /\ In (x, a) d.
(** no parameter is named like an angle *)
Definition names_apart (w : world) (o : nat) : Prop :=
  forall d k a, snd (step w (OParamDict o)) = RetDict d -> In (k, a) d -> ~ In k angle_names.
(** the shapes of I0, the zenith angles, tau and bsf already amount to [T] (every contribution contains them;
    omega and NormBRDF enter some contributions only and are not stacked if they alone have more axes) *)
Definition carried_by_common (w : world) (o : nat) (T : list nat) : Prop :=
  forall i0 t0 tex tau bsf, obs_I0 w o i0 -> obs_angle w o T0 t0 -> obs_angle w o TEx tex -> obs_param w o Tau tau -> obs_param w o Bsf bsf ->
    bc_shapes [shp i0; shp t0; shp tex; shp tau; shp bsf] = Some T.
(** with the interaction: one axis, or t_0 and t_ex have all axes and the coefficient functions are not all
    constants evaluated by sympy *)
Definition angles_lead (w : world) (o : nat) (T : list nat) : Prop :=
  (forall a, obs_angle w o T0 a \/ obs_angle w o TEx a -> length (shp a) = length T) /\ (length T = 1 \/ fn_fills w o).

(** as stated: whatever the shapes, as long as they can be broadcast *)
Definition C21_intended : Prop := forall w o sg db V SRF T,
  tidy w (OCalc o nil) -> obs_flags w o true sg db -> names_current w o -> own_fn w o ->
  obs_fun w o WV V -> obs_fun w o WSRF SRF -> evaluable w o V -> evaluable w o SRF -> names_apart w o -> inputs_fit w o T ->
  exists a, snd (step w (OCalc o nil)) = RetArr a.

Lemma in_dvals (d : dict (nd xr)) a : In a (dvals d) -> exists k, In (k, a) d.
Proof. unfold dvals. intros H. apply in_map_iff in H. destruct H as ((k & b) & E & H). simpl in E. subst b. eauto. Qed.
Lemma in_dkeys (d : dict (nd xr)) k a : In (k, a) d -> In k (dkeys d).
Proof. intros H. unfold dkeys. apply in_map_iff. exists (k, a). auto. Qed.
Lemma in_dkeys_inv (d : dict (nd xr)) k : In k (dkeys d) -> exists a, In (k, a) d.
Proof. unfold dkeys. intros H. apply in_map_iff in H. destruct H as ((k' & b) & E & H). simpl in E. subst k'. eauto. Qed.
Lemma names_nodup (ks : list string) : NoDup ks -> (forall k, In k ks -> ~ In k angle_names) -> NoDup (angle_names ++ ks).
Proof.
  intros N H. assert (A : forall x, In x angle_names -> ~ In x ks) by (intros x Hx Hk; exact (H x Hk Hx)).
  unfold angle_names in *. cbn [app]. repeat constructor; auto;
    match goal with |- ~ In ?x _ => pose proof (A x ltac:(simpl; auto)) as Ax end; simpl; intros X; repeat (destruct X as [X|X]; [discriminate X|]); contradiction.
Qed.
Lemma geom_over r : geom_ok r -> forall e, In e [g_t0 (r_geom r); g_tex (r_geom r); g_p0 (r_geom r); g_pex (r_geom r)] -> over (fun s => In s angle_names) e.
Proof.
  intros G. assert (A : forall b, over (fun s => In s angle_names) (ang_sym b)) by (intros b s Hs; destruct b; simpl in *; tauto).
  assert (L : forall b e, slot r b e -> over (fun s => In s angle_names) e) by (intros b e [[-> _]|(q & -> & _)]; [apply A|intros s []]).
  unfold geom_ok in G. destruct (r_mono r).
  - destruct G as (e0 & -> & S0). intros e [<-|[<-|[<-|[<-|[]]]]]; cbn [g_t0 g_tex g_p0 g_pex]; eauto.
  - destruct G as (G1 & G2 & G3 & G4). intros e [<-|[<-|[<-|[<-|[]]]]]; eauto.
Qed.

(** *** C21, success.  If every input can be broadcast to the shape [T], the common inputs amount to [T] and
    the zenith angles lead, calc() returns an array whose rows have the shape [T]. *)
Theorem C21_success_partial : forall w o sg db V SRF T,
  tidy w (OCalc o nil) -> obs_flags w o true sg db -> names_current w o -> own_fn w o ->
  obs_fun w o WV V -> obs_fun w o WSRF SRF -> evaluable w o V -> evaluable w o SRF -> names_apart w o ->
  inputs_fit w o T -> carried_by_common w o T -> angles_lead w o T ->
  exists a, snd (step w (OCalc o nil)) = RetArr a /\ shp (row a 0) = T.
Proof.
  intros w o sg db V SRF T Ti (r & Hr & Q & _) NC (ro & Hro & N1 & N2) (rv & Hrv & EV) (rs & Hrs & ES) (BV & (nV & HnV & PV) & SV) (BS & (nS & HnS & PS) & SS) NA
    (IA & IP & (i0 & Oi & Fi) & d & Od & Fd) Car (Ld & Fl).
  rewrite Hr in Hro, Hrv, Hrs. injection Hro as <-. injection Hrv as <-. injection Hrs as <-. cbn [scat_id] in EV, ES.
  pose proof (tidy_good _ _ Ti) as G. destruct (tidy_inv _ _ Ti) as (FI & GI & _).
  set (C := conf (w_heap w) r). set (fe := fnev_next (w_heap w) r).
  assert (Hc : at_conf w o C fe) by (exists r; auto).
  destruct (IA T0) as (t0 & O1 & F1). destruct (IA TEx) as (tex & O2 & F2). destruct (IA P0) as (p0 & O3 & F3). destruct (IA PEx) as (pex & O4 & F4).
  destruct (IP Tau) as (tau & Ot & Ft). destruct (IP Omega) as (om & Oo & Fo). destruct (IP NormBRDF) as (norm & On & Fn). destruct (IP Bsf) as (bsf & Ob & Fb).
  pose proof (Car _ _ _ _ _ Oi O1 O2 Ot Ob) as Cy. pose proof (Ld t0 (or_introl O1)) as L1. pose proof (Ld tex (or_intror O2)) as L2.
  assert (R1 := proj1 (c_angle w _ o C fe G Hc T0 t0) O1). assert (R2 := proj1 (c_angle w _ o C fe G Hc TEx tex) O2).
  assert (R3 := proj1 (c_angle w _ o C fe G Hc P0 p0) O3). assert (R4 := proj1 (c_angle w _ o C fe G Hc PEx pex) O4).
  assert (Rt := proj1 (c_param w _ o C fe G Hc Tau tau) Ot). assert (Ro := proj1 (c_param w _ o C fe G Hc Omega om) Oo).
  assert (Rn := proj1 (c_param w _ o C fe G Hc NormBRDF norm) On). assert (Rb := proj1 (c_param w _ o C fe G Hc Bsf bsf) Ob).
  assert (Ri := proj1 (c_I0_obs w o C fe Hc i0) Oi). assert (Rk := proj1 (c_dict w _ o C fe G Hc d) Od).
  destruct (good_keys _ _ G) as [K B].
  assert (Kd : dkeys d = dkeys (r_params r)) by (rewrite (p_params_keys _ _ Rk); apply dkeys_map).
  assert (ND : NoDup (angle_names ++ dkeys d)).
  { apply names_nodup; [rewrite Kd; exact (proj1 (proj2 K o r Hr))|]. intros k Hk. destruct (in_dkeys_inv _ _ Hk) as (a & Ha). exact (NA d k a Od Ha). }
  assert (Fk : Forall (fun a => ble (shp a) T) (dvals d)).
  { apply Forall_forall. intros a Ha. destruct (in_dvals _ _ Ha) as (k & Hk). exact (Fd k a Hk). }
  assert (SV' : forall x, In x (scat_syms V) -> In x (dkeys d)).
  { intros x Hx. destruct (SV x Hx) as (_ & d' & a & Od' & Ha). rewrite Od in Od'. injection Od' as <-. exact (in_dkeys _ _ _ Ha). }
  assert (SS' : forall x, In x (scat_syms SRF) -> In x (dkeys d)).
  { intros x Hx. destruct (SS x Hx) as (_ & d' & a & Od' & Ha). rewrite Od in Od'. injection Od' as <-. exact (in_dkeys _ _ _ Ha). }
  assert (FV : free_scat V). { intros x Hx _. destruct (SV x Hx) as [A _]. split; intros ->; apply A; simpl; auto. }
  assert (FS : free_scat SRF). { intros x Hx _. destruct (SS x Hx) as [A _]. split; intros ->; apply A; simpl; auto. }
  pose proof (GI o r Hr) as Go. pose proof (geom_free r Go) as Fg.
  destruct (calc_fn_ok V SRF (r_geom r) nV nS BV BS HnV HnS PV PS) as (fns & Ef).
  assert (N0 : 1 <= length T) by (pose proof (read_rank _ _ _ _ R1); lia).
  assert (Cu : up_to_date r) by (apply (up_to_date_current w o r Hr); exact NC).
  assert (Efe : fe = Ok (Some (mk_comp (h_be (w_heap w)) (fn_angle_names ++ dkeys d) fns))).
  { unfold fe. rewrite (fnev_fresh _ _ (FI o r Hr) (proj2 K o r Hr) B Q Cu).
    exact (p_comp_total C V SRF d nV nS Rk EV ES B ND SV' SS' fns Ef HnV HnS PV PS Fg FV FS (geom_over r Go) N1 N2 Q). }
  assert (Fill : length T = 1 \/ fills (mk_comp (h_be (w_heap w)) (fn_angle_names ++ dkeys d) fns)).
  { destruct Fl as [Fl|(r' & k & Hr' & Ek & Fk')]; [now left|right]. rewrite Hr in Hr'. injection Hr' as <-.
    change (fe = Ok (Some k)) in Ek. rewrite Efe in Ek. injection Ek as <-. exact Fk'. }
  rewrite (calc_nil w o C fe G Hc). rewrite Efe.
  destruct (p_calc_total C T V SRF d t0 tex p0 pex i0 tau om norm bsf nV nS R1 R2 R3 R4 Rk Ri EV ES Rt Ro Rn Rb F1 F2 F3 F4 Fk Fi Ft Fo Fn Fb B ND SV' SS' Cy fns Ef
    HnV HnS PV PS Fg FV FS (geom_over r Go) L1 L2 N0 Fill Q) as (a & Ha & Sa).
  exists a. split; [|exact Sa]. change (c_backend C) with (h_be (w_heap w)) in Ha. rewrite Ha. reflexivity.
Qed.
Print Assumptions C21_success_partial.

(** without the interaction contribution the number of axes of the angles and the coefficients do not matter *)
Theorem C21_success_direct_partial : forall w o sg db V SRF T,
  good w (OCalc o nil) -> obs_flags w o false sg db -> obs_fun w o WV V -> obs_fun w o WSRF SRF ->
  (forall x, In x (scat_syms V) \/ In x (scat_syms SRF) -> exists d a, snd (step w (OParamDict o)) = RetDict d /\ In (x, a) d) -> names_apart w o ->
  inputs_fit w o T -> carried_by_common w o T ->
  exists a, snd (step w (OCalc o nil)) = RetArr a /\ shp (row a 0) = T.
Proof.
  intros w o sg db V SRF T G (r & Hr & Q & _) (rv & Hrv & EV) (rs & Hrs & ES) SVS NA (IA & IP & (i0 & Oi & Fi) & d & Od & Fd) Car.
  rewrite Hr in Hrv, Hrs. injection Hrv as <-. injection Hrs as <-. cbn [scat_id] in EV, ES.
  set (C := conf (w_heap w) r). set (fe := fnev_next (w_heap w) r).
  assert (Hc : at_conf w o C fe) by (exists r; auto).
  destruct (IA T0) as (t0 & O1 & F1). destruct (IA TEx) as (tex & O2 & F2). destruct (IA P0) as (p0 & O3 & F3). destruct (IA PEx) as (pex & O4 & F4).
  destruct (IP Tau) as (tau & Ot & Ft). destruct (IP Omega) as (om & Oo & Fo). destruct (IP NormBRDF) as (norm & On & Fn). destruct (IP Bsf) as (bsf & Ob & Fb).
  pose proof (Car _ _ _ _ _ Oi O1 O2 Ot Ob) as Cy.
  assert (R1 := proj1 (c_angle w _ o C fe G Hc T0 t0) O1). assert (R2 := proj1 (c_angle w _ o C fe G Hc TEx tex) O2).
  assert (R3 := proj1 (c_angle w _ o C fe G Hc P0 p0) O3). assert (R4 := proj1 (c_angle w _ o C fe G Hc PEx pex) O4).
  assert (Rt := proj1 (c_param w _ o C fe G Hc Tau tau) Ot). assert (Ro := proj1 (c_param w _ o C fe G Hc Omega om) Oo).
  assert (Rn := proj1 (c_param w _ o C fe G Hc NormBRDF norm) On). assert (Rb := proj1 (c_param w _ o C fe G Hc Bsf bsf) Ob).
  assert (Ri := proj1 (c_I0_obs w o C fe Hc i0) Oi). assert (Rk := proj1 (c_dict w _ o C fe G Hc d) Od).
  destruct (good_keys _ _ G) as [K B].
  assert (Kd : dkeys d = dkeys (r_params r)) by (rewrite (p_params_keys _ _ Rk); apply dkeys_map).
  assert (ND : NoDup (angle_names ++ dkeys d)).
  { apply names_nodup; [rewrite Kd; exact (proj1 (proj2 K o r Hr))|]. intros k Hk. destruct (in_dkeys_inv _ _ Hk) as (a & Ha). exact (NA d k a Od Ha). }
  assert (Fk : Forall (fun a => ble (shp a) T) (dvals d)).
  { apply Forall_forall. intros a Ha. destruct (in_dvals _ _ Ha) as (k & Hk). exact (Fd k a Hk). }
  assert (SY : forall x, In x (scat_syms V) \/ In x (scat_syms SRF) -> In x (dkeys d)).
  { intros x Hx. destruct (SVS x Hx) as (d' & a & Od' & Ha). rewrite Od in Od'. injection Od' as <-. exact (in_dkeys _ _ _ Ha). }
  rewrite (calc_nil w o C fe G Hc).
  destruct (p_calc_direct_total C T V SRF d t0 tex p0 pex i0 tau om norm bsf R1 R2 R3 R4 Rk Ri EV ES Rt Ro Rn Rb F1 F2 F3 F4 Fk Fi Ft Fo Fn Fb B ND
    (fun x H => SY x (or_introl H)) (fun x H => SY x (or_intror H)) Cy fe Q) as (a & Ha & Sa).
  exists a. split; [|exact Sa]. rewrite Ha. reflexivity.
Qed.
Print Assumptions C21_success_direct_partial.

(** *** C60.  The same two facts as a property of their own: which shapes calc() accepts. *)
Theorem C60_accepted_shapes : forall w o iq sg db V SRF T,
  tidy w (OCalc o nil) -> obs_flags w o iq sg db -> names_current w o -> own_fn w o ->
  obs_fun w o WV V -> obs_fun w o WSRF SRF -> evaluable w o V -> evaluable w o SRF -> names_apart w o ->
  inputs_fit w o T -> carried_by_common w o T -> (iq = true -> angles_lead w o T) ->
  exists a, snd (step w (OCalc o nil)) = RetArr a /\ shp (row a 0) = T.
Proof.
  intros w o iq sg db V SRF T Ti Fl NC OF OV OS EV ES NA Fit Car Ld. destruct iq.
  - eapply C21_success_partial; eauto.
  - apply (C21_success_direct_partial w o sg db V SRF T); auto using tidy_good.
    intros x [H|H]; [apply (proj2 (proj2 EV) x H)|apply (proj2 (proj2 ES) x H)].
Qed.
Print Assumptions C60_accepted_shapes.
