(** Observations: what the calls of the (cached) program return in a state reached by an admissible
    history, in terms of the configuration. *)
From Verif Require Export PureApi.
Open Scope nat_scope.

(** ** Calls in the program without caches *)
Definition bare (h : heap) : world := mk_world h false (fun _ => []).
Definition eval (h : heap) (p : op) : out := snd (step (bare h) p).
Definition evalh (h : heap) (p : op) : heap := w_heap (fst (step (bare h) p)).

(** ** States reached by admissible histories of the program with caches *)
Definition good (w : world) (p : op) : Prop :=
  exists seng ps, adm [] (init seng true) (ps ++ [p]) /\ w = fst (run (init seng true) ps).

Lemma adm_app ps : forall J w qs,
  adm J w (ps ++ qs) <-> adm J w ps /\ adm (fold_left J_after ps J) (fst (run w ps)) qs.
Proof.
  induction ps as [|p ps IH]; intros J w qs.
  - simpl. tauto.
  - rewrite <- app_comm_cons, run_cons. cbn [adm fold_left fst]. rewrite IH. tauto.
Qed.
Lemma run_Sim ps : forall J w u, Sim J w u -> HB (w_heap w) -> adm J w ps ->
  Sim (fold_left J_after ps J) (fst (run w ps)) (fst (run u ps)) /\ HB (w_heap (fst (run w ps))).
Proof.
  induction ps as [|p ps IH]; intros J w u HS HBw Ha; [auto|].
  destruct Ha as [Ha1 Ha2]. destruct (step_sim J w u p HS HBw Ha1) as [_ HS'].
  pose proof (step_HB w p HBw) as HB'. rewrite !run_cons. cbn [fst fold_left]. eapply IH; eassumption.
Qed.
Lemma Sim_bare J w u : Sim J w u -> Sim J w (bare (w_heap w)).
Proof. intros (H1 & H2 & H3 & H4 & H5). split; [assumption|]. split; [reflexivity|]. split; [reflexivity|]. auto. Qed.

Lemma good_eval w p : good w p ->
  HB (w_heap w) /\ snd (step w p) = eval (w_heap w) p /\ w_heap (fst (step w p)) = evalh (w_heap w) p.
Proof.
  intros (seng & ps & Ha & ->). apply adm_app in Ha. destruct Ha as [Ha [Hp _]].
  destruct (run_Sim ps [] _ _ (Sim_init seng) (HB_init seng) Ha) as [HS HBw].
  apply Sim_bare in HS. destruct (step_sim _ _ _ p HS HBw Hp) as [He HS'].
  split; [assumption|]. split; [exact He|]. destruct HS' as (_ & _ & E & _). exact E.
Qed.
Lemma good_next w p q : good w p -> (forall J, adm1 J (w_heap (fst (step w p))) q) -> good (fst (step w p)) q.
Proof.
  intros (seng & ps & Ha & ->) Hq. exists seng, (ps ++ [p]). split.
  - apply adm_app. split; [exact Ha|]. rewrite run_app. cbn [adm]. split; [|exact I].
    rewrite run_cons. apply Hq.
  - rewrite run_app, run_cons. reflexivity.
Qed.
Lemma good_other w p q : good w p -> (forall J, adm1 J (w_heap w) q) -> good w q.
Proof.
  intros (seng & ps & Ha & ->) Hq. exists seng, ps. split; [|reflexivity].
  apply adm_app in Ha. apply adm_app. split; [apply Ha|]. split; [apply Hq|exact I].
Qed.
Definition reading (q : op) : Prop :=
  match q with OReadAngle _ _ | OReadParam _ _ | OScatCalc _ _ _ _ _ _ | OParamDict _ => True | _ => False end.
Lemma reading_adm q J h : reading q -> adm1 J h q.
Proof. destruct q; simpl; tauto. Qed.
Lemma good_plain seng ps p : adm [] (init seng true) (ps ++ [p]) -> good (fst (run (init seng true) ps)) p.
Proof. intros H. exists seng, ps. auto. Qed.

(** ** Reads *)
Definition outA (x : res (nd xr)) : out := match x with Ok a => RetArr a | Err e => Raised e end.

Lemma at_self {A} h o r (m : M A) x : obj h o = Ok r -> pure_at h (conf h r) (fnev_next h r) o m x ->
  snd (m (bare h)) = x.
Proof.
  intros Hr H. apply obj_nth in Hr. destruct (H (h_objs h) (fun _ => []) r Hr eq_refl eq_refl) as (r' & E & _).
  unfold bare. destruct h. unfold set_objs in E. simpl in *. rewrite E. reflexivity.
Qed.
Lemma snd_as_out {A} (f : A -> out) (m : M A) w : snd (as_out f m w) = match snd (m w) with Ok a => f a | Err e => Raised e end.
Proof. unfold as_out. destruct (m w); reflexivity. Qed.

Lemma eval_angle h o r a : obj h o = Ok r -> eval h (OReadAngle o a) = outA (p_read (conf h r) a).
Proof. intros Hr. unfold eval. cbn [step]. rewrite snd_as_out, (at_self h o r _ _ Hr (at_ang _ _ _ _ a)). reflexivity. Qed.
Lemma eval_param_read h o r p : obj h o = Ok r -> eval h (OReadParam o p) = outA (p_val (conf h r) p).
Proof. intros Hr. unfold eval. cbn [step]. rewrite snd_as_out, (at_self h o r _ _ Hr (at_val _ _ _ _ p)). reflexivity. Qed.
Lemma eval_dict h o r : obj h o = Ok r ->
  eval h (OParamDict o) = match p_params (conf h r) with Ok d => RetDict d | Err e => Raised e end.
Proof.
  intros Hr. unfold eval. cbn [step]. unfold as_out, gets. cbn [snd w_heap bare]. rewrite Hr. cbn [rbind].
  now rewrite (params_conf h _ r eq_refl).
Qed.
Lemma eval_scat h sid t0 tex p0 pex kw : eval h (OScatCalc sid t0 tex p0 pex kw) =
  outA (let* s := scat_at h sid in
        let* f := lambdify (h_be h) (h_seng h) (angle_names ++ dkeys kw) [phase_function s] in
        call1 f [t0; tex; p0; pex] kw).
Proof.
  unfold eval. cbn [step]. rewrite snd_as_out. unfold scat_calc. unfold bind at 1.
  rewrite (pure_lambda sid (dkeys kw) (bare h) eq_refl). unfold h_lambda. cbn [w_heap bare].
  destruct (scat_at h sid); cbn [rbind]; [|reflexivity].
  destruct (lambdify _ _ _ _); cbn [rbind]; reflexivity.
Qed.

(** ** Evaluations: state and result *)
Definition same_obj (h : heap) (r1 r' : rt1) : Prop :=
  strip r' = strip r1 /\ conf h r' = conf h r1 /\ fnev_next h r' = fnev_next h r1.

Lemma eval_upd {A} h o r kw (m : M A) x (f : A -> out) :
  obj h o = Ok r ->
  (let r1 := upd_rec r kw in pure_at h (conf h r1) (fnev_next h r1) o m x) ->
  let s := as_out f (update_params o kw ;;; m) (bare h) in
  snd s = match x with Ok a => f a | Err e => Raised e end /\
  exists r', w_heap (fst s) = set_objs h (list_set (h_objs h) o r') /\ same_obj h (upd_rec r kw) r'.
Proof.
  intros Hr H s. pose proof (proj1 (obj_nth h o r) Hr) as Hn.
  destruct (H (list_set (h_objs h) o (upd_rec r kw)) (fun _ => []) (upd_rec r kw)) as (r' & E & Hs & Hc & Hf); auto.
  { eapply nth_error_list_set_same; eassumption. }
  assert (Es : s = as_out f m (mk_world (set_objs h (list_set (h_objs h) o (upd_rec r kw))) false (fun _ => []))).
  { unfold s, as_out. unfold bind at 1. rewrite update_params_eq. rewrite (bind_get o r); [|exact Hr]. reflexivity. }
  rewrite Es. unfold as_out. rewrite E. cbn [snd fst w_heap]. split; [reflexivity|].
  exists r'. rewrite list_set_twice. split; [reflexivity|]. repeat split; assumption.
Qed.
Lemma eval_same {A} h o r (m : M A) x (f : A -> out) :
  obj h o = Ok r -> pure_at h (conf h r) (fnev_next h r) o m x ->
  let s := as_out f m (bare h) in
  snd s = match x with Ok a => f a | Err e => Raised e end /\
  exists r', w_heap (fst s) = set_objs h (list_set (h_objs h) o r') /\ same_obj h r r'.
Proof.
  intros Hr H s. pose proof (proj1 (obj_nth h o r) Hr) as Hn.
  destruct (H (h_objs h) (fun _ => []) r Hn eq_refl eq_refl) as (r' & E & Hs & Hc & Hf).
  assert (Eb : bare h = mk_world (set_objs h (h_objs h)) false (fun _ => [])) by (now destruct h).
  unfold s, as_out. rewrite Eb, E. cbn [snd fst w_heap]. split; [reflexivity|]. exists r'. repeat split; assumption.
Qed.

Definition heap_after (h : heap) (p : op) (o : nat) (r1 : rt1) : Prop :=
  exists r', evalh h p = set_objs h (list_set (h_objs h) o r') /\ same_obj h r1 r'.

Lemma eval_surface h o r kw : obj h o = Ok r -> let C := conf h (upd_rec r kw) in
  eval h (OSurface o kw) = outA (let* v := p_surface C in p_convert C v) /\
  heap_after h (OSurface o kw) o (upd_rec r kw).
Proof.
  intros Hr C. unfold heap_after, eval, evalh. cbn [step]. unfold api_surface. apply (eval_upd h o r kw _ _ RetArr Hr). simpl.
  apply at_bind; [apply at_surface|intros ? _; apply at_convert].
Qed.
Lemma eval_volume h o r kw : obj h o = Ok r -> let C := conf h (upd_rec r kw) in
  eval h (OVolume o kw) = outA (let* v := p_volume C in p_convert C v) /\
  heap_after h (OVolume o kw) o (upd_rec r kw).
Proof.
  intros Hr C. unfold heap_after, eval, evalh. cbn [step]. unfold api_volume. apply (eval_upd h o r kw _ _ RetArr Hr). simpl.
  apply at_bind; [apply at_volume|intros ? _; apply at_convert].
Qed.
Lemma eval_interaction h o r kw : obj h o = Ok r -> let C := conf h (upd_rec r kw) in
  eval h (OInteraction o kw) = outA (let* v := p_interaction C (fnev_next h (upd_rec r kw)) in p_convert C v) /\
  heap_after h (OInteraction o kw) o (upd_rec r kw).
Proof.
  intros Hr C. unfold heap_after, eval, evalh. cbn [step]. unfold api_interaction. apply (eval_upd h o r kw _ _ RetArr Hr). simpl.
  apply at_bind; [apply at_interaction|intros ? _; apply at_convert].
Qed.
Lemma catch_after {A B} (u : M A) (m : M B) k w w1 a : u w = (w1, Ok a) ->
  catch (u ;;; m) k w = (u ;;; catch m k) w.
Proof. intros E. unfold catch, bind. rewrite E. reflexivity. Qed.
Lemma eval_calc h o r kw : obj h o = Ok r ->
  eval h (OCalc o kw) = outA (p_calc (conf h (upd_rec r kw)) (fnev_next h (upd_rec r kw))) /\
  heap_after h (OCalc o kw) o (upd_rec r kw).
Proof.
  intros Hr. unfold heap_after, eval, evalh. cbn [step].
  match goal with |- context [as_out RetArr ?m (bare h)] =>
    assert (E : as_out RetArr m (bare h) = as_out RetArr (update_params o kw ;;;
     (catch (m_calc_body o) (fun e => match e with
       | TypeError | MissingParams _ =>
           do ss <- all_param_symbs o ;;
           do r <- get_obj o ;;
           do symbs <- gets (fun h =>
             let* v := scat_at h (r_V r) in let* s := scat_at h (r_SRF r) in
             Ok (dedup_diff (ss ++ free_syms (phase_function v) ++ free_syms (phase_function s))
                            (angle_names ++ dkeys (r_params r)))) ;;
           match symbs with [] => fail e | _ => fail (MissingParams symbs) end
       | _ => fail e
       end))) (bare h)) end.
  { unfold m_calc, as_out. rewrite (catch_after (update_params o kw) _ _ _ (fst (put_obj o (upd_rec r kw) (bare h))) tt); [reflexivity|].
    rewrite update_params_eq, (bind_get o r _ (bare h) Hr). reflexivity. }
  rewrite E. apply (eval_upd h o r kw _ _ RetArr Hr). simpl. apply at_calc_after.
Qed.
Lemma eval_jacobian h o r keys f : obj h o = Ok r ->
  eval h (OJacobian o keys f) = match p_jacobian (conf h r) keys f with Ok j => RetJac j | Err e => Raised e end /\
  heap_after h (OJacobian o keys f) o r.
Proof. intros Hr. unfold heap_after, eval, evalh. cbn [step]. apply (eval_same h o r _ _ RetJac Hr). apply at_jacobian. Qed.

(** reads after an evaluation refer to the same configuration *)
Lemma conf_set_objs h l r : conf (set_objs h l) r = conf h r.
Proof. reflexivity. Qed.
Lemma fnev_set_objs h l r : fnev_next (set_objs h l) r = fnev_next h r.
Proof. reflexivity. Qed.
Lemma obj_after h p o r r1 : obj h o = Ok r -> heap_after h p o r1 ->
  exists r', obj (evalh h p) o = Ok r' /\ strip r' = strip r1 /\ conf (evalh h p) r' = conf h r1 /\
             fnev_next (evalh h p) r' = fnev_next h r1.
Proof.
  intros Hr (r' & E & Hs & Hc & Hf). exists r'. rewrite E. split; [eapply obj_put_same; eassumption|].
  split; [assumption|]. split; assumption.
Qed.

(** ** Observations, in terms of the API *)
Definition obs_angle (w : world) (o : nat) (a : angle) (x : nd xr) : Prop := snd (step w (OReadAngle o a)) = RetArr x.
Definition obs_param (w : world) (o : nat) (p : pname) (x : nd xr) : Prop := snd (step w (OReadParam o p)) = RetArr x.
(** R.I0 *)
Definition obs_I0 (w : world) (o : nat) (x : nd xr) : Prop :=
  exists r, obj (w_heap w) o = Ok r /\ deref (w_heap w) (r_I0 r) = Ok x.
(** R.sig0, R.dB, R.int_Q *)
Definition obs_flags (w : world) (o : nat) (intQ sig0 dB : bool) : Prop :=
  exists r, obj (w_heap w) o = Ok r /\ r_intQ r = intQ /\ r_sig0 r = sig0 /\ r_dB r = dB.
(** R.V.calc(R.t_0, R.t_ex, R.p_0, R.p_ex, R.param_dict), R.SRF.calc(...) *)
Definition obs_scat (w : world) (o : nat) (x : which) (v : nd xr) : Prop :=
  exists r t0 tex p0 pex d, obj (w_heap w) o = Ok r /\
    obs_angle w o T0 t0 /\ obs_angle w o TEx tex /\ obs_angle w o P0 p0 /\ obs_angle w o PEx pex /\
    snd (step w (OParamDict o)) = RetDict d /\
    snd (step w (OScatCalc (scat_id r x) t0 tex p0 pex d)) = RetArr v.

(** everything the direct contributions are made of, as read back from the object *)
Record inputs : Type := mk_in { in_I0 : nd xr; in_t0 : nd xr; in_tex : nd xr;
  in_tau : nd xr; in_om : nd xr; in_norm : nd xr; in_bsf : nd xr; in_V : nd xr; in_SRF : nd xr }.

(** the observations in terms of the configuration *)
Section Obs.
  Context (w : world) (p : op) (o : nat) (r : rt1).
  Hypothesis Hg : good w p.
  Hypothesis Hr : obj (w_heap w) o = Ok r.
  Let C := conf (w_heap w) r.

  Lemma read_eval q : reading q -> snd (step w q) = eval (w_heap w) q.
  Proof.
    intros Hq. assert (G : good w q) by (eapply good_other; [exact Hg|intros J; now apply reading_adm]).
    apply (good_eval w q G).
  Qed.
  Lemma obs_angle_conf a x : obs_angle w o a x <-> p_read C a = Ok x.
  Proof.
    unfold obs_angle. rewrite (read_eval (OReadAngle o a) I), (eval_angle _ _ _ _ Hr). fold C.
    destruct (p_read C a); simpl; split; congruence.
  Qed.
  Lemma obs_param_conf q x : obs_param w o q x <-> p_val C q = Ok x.
  Proof.
    unfold obs_param. rewrite (read_eval (OReadParam o q) I), (eval_param_read _ _ _ _ Hr). fold C.
    destruct (p_val C q); simpl; split; congruence.
  Qed.
  Lemma obs_I0_conf x : obs_I0 w o x <-> c_I0 C = Ok x.
  Proof.
    split.
    - intros (r0 & H0 & Hx). assert (r0 = r) by congruence. subst r0. exact Hx.
    - intros Hx. exists r. auto.
  Qed.
  Lemma obs_dict_conf d : snd (step w (OParamDict o)) = RetDict d <-> p_params C = Ok d.
  Proof.
    rewrite (read_eval (OParamDict o) I), (eval_dict _ _ _ Hr). fold C.
    destruct (p_params C); simpl; split; congruence.
  Qed.
  Lemma obs_scat_conf x v : obs_scat w o x v <-> p_scat C x = Ok v.
  Proof.
    unfold obs_scat, p_scat. split.
    - intros (r0 & t0 & tex & p0 & pex & d & H0 & A1 & A2 & A3 & A4 & Hd & Hv). assert (r0 = r) by congruence. subst r0.
      apply obs_angle_conf in A1, A2, A3, A4. apply obs_dict_conf in Hd. rewrite A1, A2, A3, A4, Hd. cbn [rbind].
      rewrite (read_eval (OScatCalc (scat_id r x) t0 tex p0 pex d) I), eval_scat in Hv.
      replace (match x with WV => c_V C | WSRF => c_SRF C end) with (scat_at (w_heap w) (scat_id r x)) by (destruct x; reflexivity).
      change (c_backend C) with (h_be (w_heap w)). change (c_seng C) with (h_seng (w_heap w)).
      destruct (rbind _ _); simpl in Hv; congruence.
    - intros H. destruct (p_read C T0) as [t0|] eqn:A1; [|discriminate]. destruct (p_read C TEx) as [tex|] eqn:A2; [|discriminate].
      destruct (p_read C P0) as [p0|] eqn:A3; [|discriminate]. destruct (p_read C PEx) as [pex|] eqn:A4; [|discriminate].
      destruct (p_params C) as [d|] eqn:Hd; [|discriminate]. cbn [rbind] in H.
      exists r, t0, tex, p0, pex, d. split; [assumption|]. rewrite !obs_angle_conf, obs_dict_conf.
      repeat (split; [assumption|]).
      rewrite (read_eval (OScatCalc (scat_id r x) t0 tex p0 pex d) I), eval_scat.
      replace (match x with WV => c_V C | WSRF => c_SRF C end) with (scat_at (w_heap w) (scat_id r x)) in H by (destruct x; reflexivity).
      change (c_backend C) with (h_be (w_heap w)) in H. change (c_seng C) with (h_seng (w_heap w)) in H.
      rewrite H. reflexivity.
  Qed.
End Obs.
