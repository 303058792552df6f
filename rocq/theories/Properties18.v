(** C05: the caller changes, in place, an array that was passed to set_geometry.  The array itself is
    kept (np.atleast_1d, _calc.py:398-401), so the angle readings and the distribution functions see
    the new numbers; the cosines of t_0 and t_ex are cached per object (_calc.py:272-303) and are only
    forgotten when the geometry is set again. *)
From Verif Require Import JacEl Stale NumProps ScatEl PhaseVal Formula.
From Coq Require Import Lra.
Open Scope string_scope.
Open Scope nat_scope.
Open Scope list_scope.

(** the history up to the change, the change, and a question asked after it *)
Definition asked_after (on : bool) (seng : bool) (ps : list op) (q : op) : out :=
  snd (step (fst (run (init seng on) ps)) q).

(** the property as stated: afterwards the answer is the one for the old angles, or the one for the new
    angles, i.e. what the program without caches computes *)
Definition C05_intended : Prop :=
  forall seng ps aid f q o, adm [] (init seng true) ps -> evaluation q = Some (o, []) ->
    asked_after true seng (ps ++ [OMutate aid f]) q = asked_after true seng ps q \/
    asked_after true seng (ps ++ [OMutate aid f]) q = asked_after false seng (ps ++ [OMutate aid f]) q.

(** ** refuted: volume() mixes the two *)
Definition histU : list op :=
  [ ONewScat (VRay a_srf); ONewScat (SIso a_srf);
    ONew (Some 0) (Some 1) false false false None None (PNum (Fin 1));
    ONewArr (mk_nd [1] (fun _ => Fin 0));
    OSetGeometry 0 [("t_0", Some (PArr 0)); ("p_0", Some (PNum (Fin 0)))];
    OUpdate 0 [("tau", PNum (Fin 1)); ("omega", PNum (Fin 1)); ("NormBRDF", PNum (Fin 1))];
    OVolume 0 [] ].
Definition mutU : op := OMutate 0 (fun _ => Fin (PI / 3)).
Definition wU (on : bool) : world := fst (run (init true on) histU).
Definition wU1 (on : bool) : world := fst (step (wU on) mutU).
Local Strategy expand [mutU wU wU1 asked_after].
Definition rU : rt1 :=
  match obj (w_heap (wU true)) 0 with
  | Ok r => r
  | Err _ => mk_rt1 0 0 false false false None None (PNum NaN) (fun _ => DVal (PNum NaN)) [] [] false
               (fun _ => None) (mk_angs EPi EPi EPi EPi) None None false
  end.
Lemma rU_ok on : obj (w_heap (wU on)) 0 = Ok rU. Proof. destruct on; vm_compute; reflexivity. Qed.
Lemma rU1_ok on : obj (w_heap (wU1 on)) 0 = Ok rU. Proof. destruct on; vm_compute; reflexivity. Qed.
Definition ConfU (changed : bool) : config := conf (w_heap (if changed then wU1 true else wU true)) rU.
Definition thU (changed : bool) : R := if changed then (PI / 3)%R else 0%R.

Lemma adm_U : adm [] (init true true) histU.
Proof. unfold histU. repeat (split; [try exact I|]); try exact I; intros []. Qed.
Lemma good_U : good (wU true) (OVolume 0 []).
Proof.
  exists true, histU. split; [|reflexivity]. unfold histU. cbn [app]. repeat (split; [try exact I|]); try exact I; intros [].
Qed.
Lemma simU : exists J, SimN J (wU1 true) (bare (w_heap (wU1 true))) /\ HB (w_heap (wU1 true)).
Proof.
  exact (after_mutate true histU 0 (fun _ => Fin (PI / 3)) adm_U).
Qed.

(** what the configurations contain *)
Lemma vU_t0 c : p_read (ConfU c) T0 = Ok (mk_nd [1] (fun _ => Fin (thU c))). Proof. destruct c; vm_compute; reflexivity. Qed.
Lemma vU_tex c : p_read (ConfU c) TEx = Ok (mk_nd [1] (fun _ => Fin (thU c))). Proof. destruct c; vm_compute; reflexivity. Qed.
Lemma vU_p0 c : p_read (ConfU c) P0 = Ok (mk_nd [1] (fun _ => Fin 0)). Proof. destruct c; vm_compute; reflexivity. Qed.
Lemma vU_pex c : p_read (ConfU c) PEx = Ok (mk_nd [1] (fun _ => Fin (0 + PI))). Proof. destruct c; vm_compute; reflexivity. Qed.
Lemma vU_I0 c : c_I0 (ConfU c) = Ok (scalar (Fin 1)). Proof. destruct c; vm_compute; reflexivity. Qed.
Lemma vU_om c : p_val (ConfU c) Omega = Ok (mk_nd [1] (fun _ => Fin 1)). Proof. destruct c; vm_compute; reflexivity. Qed.
Lemma vU_tau c : p_val (ConfU c) Tau = Ok (mk_nd [1] (fun _ => Fin 1)). Proof. destruct c; vm_compute; reflexivity. Qed.
Lemma vU_bsf c : p_val (ConfU c) Bsf = Ok (mk_nd [] (fun _ => Fin 0)). Proof. destruct c; vm_compute; reflexivity. Qed.
Lemma vU_V c : c_V (ConfU c) = Ok (VRay a_srf). Proof. destruct c; vm_compute; reflexivity. Qed.
Lemma vU_scat c : exists v, p_scat (ConfU c) WV = Ok v /\ shp v = [1] /\
  bget v [0] = Fin (p_rayleigh (cos (thU c) * cos (thU c) - sin (thU c) * sin (thU c))).
Proof.
  assert (X : exists v, p_scat (ConfU c) WV = Ok v /\ shp v = [1]) by (destruct c; vm_compute; eexists; split; reflexivity).
  destruct X as (v & Ev & Sv). exists v. split; [exact Ev|]. split; [exact Sv|].
  destruct (p_scat_el _ _ _ Ev) as (t0 & tex & p0 & pex & d & s & R1 & R2 & R3 & R4 & Rd & Rs & _ & El).
  rewrite vU_t0 in R1. rewrite vU_tex in R2. rewrite vU_p0 in R3. rewrite vU_pex in R4. rewrite vU_V in Rs.
  apply ok_inj in R1, R2, R3, R4, Rs. subst t0 tex p0 pex s.
  rewrite El. clear El.
  set (g := fun s : string => if String.eqb s "theta_0" then thU c else if String.eqb s "theta_ex" then thU c
     else if String.eqb s "phi_0" then 0%R else (0 + PI)%R).
  rewrite (evalX_Fin _ _ g).
  - rewrite evp_VRay. unfold ang_of, cos_angle, ev_a, a_srf. cbn [a0 a1 a2 evalR ga0 ga1 ga2]. rewrite !Q2R_1'.
    change (g "theta_0") with (thU c). change (g "theta_ex") with (thU c). change (g "phi_0") with 0%R. change (g "phi_ex") with (0 + PI)%R.
    f_equal. f_equal. rewrite !Rplus_0_l, cos_0, sin_0, cos_PI. ring.
  - intros s Hs. assert (Hs' : In s ["theta_0"; "theta_ex"; "phi_0"; "phi_ex"]).
    { revert Hs. clear. revert s. assert (Y : incl (syms (phase_function (VRay a_srf))) ["theta_0"; "theta_ex"; "phi_0"; "phi_ex"]).
      { intros s Hs. vm_compute in Hs. vm_compute. tauto. }
      exact Y. }
    clear Hs. unfold env_at. destruct Hs' as [<-|[<-|[<-|[<-|[]]]]]; reflexivity.
  - apply wd_phase. cbn [ok_scat]. unfold wd_a, a_srf. cbn [a0 a1 a2 wd]. auto.
Qed.

(** the volume contribution with cosines [m] and the distribution function at the angle of [c] *)
Definition volU (m : R) (c : bool) : R :=
  ((1 - exp (- (1 / m) - 1 / m)) / 2 * p_rayleigh (cos (thU c) * cos (thU c) - sin (thU c) * sin (thU c)))%R.
Lemma kU c m v : (m <> 0)%R -> p_scat (ConfU c) WV = Ok v -> shp v = [1] ->
  bget v [0] = Fin (p_rayleigh (cos (thU c) * cos (thU c) - sin (thU c) * sin (thU c))) ->
  exists a, (let* i0 := c_I0 (ConfU c) in let* om := p_val (ConfU c) Omega in let* tau := p_val (ConfU c) Tau in
     let* v := p_scat (ConfU c) WV in let* bsf := p_val (ConfU c) Bsf in
     k_volume i0 om (mk_nd [1] (fun _ => Fin m)) (mk_nd [1] (fun _ => Fin m)) tau v bsf) = Ok a /\
    shp a = [1] /\ bget a [0] = Fin (volU m c).
Proof.
  intros Hm Ev Sv El. rewrite vU_I0, vU_om, vU_tau, vU_bsf, Ev. cbn [rbind].
  match goal with |- exists a, ?k = Ok a /\ _ => assert (X : exists a, k = Ok a /\ shp a = [1]) end.
  { clear El. destruct v as [s g]. cbn [shp] in Sv. subst s. vm_compute. eexists. split; reflexivity. }
  destruct X as (a & Ea & Sa). exists a. split; [exact Ea|]. split; [exact Sa|].
  rewrite (k_volume_el _ _ _ _ _ _ _ _ [0] Ea), El.
  unfold bget. cbn [shp get proj scalar]. unfold x_volume, x_vol, x_atten. rewrite !xdiv_Fin by assumption. cbn [xmul xadd].
  rewrite xdiv_Fin by lra. cbn [xmul xadd xsub xopp xexp]. f_equal. unfold volU.
  match goal with |- context [exp ?a] => replace a with (- (1 / m) - 1 / m)%R by (try reflexivity; field; assumption) end.
  field. lra.
Qed.

(** the three answers *)
Definition oneU (x : R) (y : out) : Prop := exists a, y = RetArr a /\ shp a = [1] /\ bget a [0] = Fin x.
Lemma convU a x : shp a = [1] -> bget a [0] = Fin x -> oneU x (outA (k_convert false false (num 1) (num 1) a)).
Proof.
  intros Sa El. unfold k_convert. cbn [rbind]. destruct (nmul a (num 1)) as [b|] eqn:Eb.
  - exists b. split; [reflexivity|]. split.
    + destruct a as [s g]. cbn [shp] in Sa. subst s. vm_compute in Eb. inversion Eb. reflexivity.
    + unfold nmul in Eb. rewrite (bget_map2 _ _ _ _ [0] Eb), El. unfold num. unfold bget. cbn. f_equal. ring.
  - exfalso. destruct a as [s g]. cbn [shp] in Sa. subst s. vm_compute in Eb. discriminate.
Qed.
Lemma mixed_U : oneU (volU 1 true) (snd (step (wU1 true) (OVolume 0 []))).
Proof.
  destruct simU as (J & HS & Hb). destruct (vU_scat true) as (v & Ev & Sv & El).
  destruct (kU true 1 v R1_neq_R0 Ev Sv El) as (a & Ea & Sa & Ela).
  assert (H0 : lru_get (w_caches (wU1 true) CMu0) (0, []) = Some (VArr (mk_nd [1] (fun _ => Fin (cos 0))))) by (vm_compute; reflexivity).
  assert (Hx : lru_get (w_caches (wU1 true) CMuEx) (0, []) = Some (VArr (mk_nd [1] (fun _ => Fin (cos 0))))) by (vm_compute; reflexivity).
  rewrite cos_0 in H0, Hx.
  pose proof (api_volume_stale J (wU1 true) 0 rU _ _ a Hb (rU1_ok true) HS H0 Hx Ea eq_refl) as X.
  rewrite X. exact (convU a _ Sa Ela).
Qed.

Lemma fullU c : (cos (thU c) <> 0)%R ->
  oneU (volU (cos (thU c)) c) (outA (let* v := p_volume (ConfU c) in p_convert (ConfU c) v)).
Proof.
  intros Hc. destruct (vU_scat c) as (v & Ev & Sv & El). destruct (kU c (cos (thU c)) v Hc Ev Sv El) as (a & Ea & Sa & Ela).
  assert (M0 : p_mu0 (ConfU c) = Ok (mk_nd [1] (fun _ => Fin (cos (thU c))))) by (unfold p_mu0; rewrite vU_t0; reflexivity).
  assert (Mx : p_muex (ConfU c) = Ok (mk_nd [1] (fun _ => Fin (cos (thU c))))) by (unfold p_muex; rewrite vU_tex; reflexivity).
  assert (E : p_volume (ConfU c) = Ok a).
  { rewrite <- Ea. unfold p_volume. rewrite M0, Mx, vU_I0, vU_om. reflexivity. }
  rewrite E. cbn [rbind]. unfold p_convert.
  replace (c_sig0 (ConfU c)) with false by (destruct c; vm_compute; reflexivity).
  replace (c_dB (ConfU c)) with false by (destruct c; vm_compute; reflexivity). exact (convU a _ Sa Ela).
Qed.
Lemma old_U : oneU (volU (cos 0) false) (snd (step (wU true) (OVolume 0 []))).
Proof.
  rewrite (volume_nil (wU true) 0 (ConfU false) (fnev_next (w_heap (wU true)) rU)); [| exact good_U |].
  - apply (fullU false). cbn [thU]. rewrite cos_0. exact R1_neq_R0.
  - exists rU. split; [exact (rU_ok true)|]. split; reflexivity.
Qed.
Lemma new_U : oneU (volU (cos (PI / 3)) true) (snd (step (wU1 false) (OVolume 0 []))).
Proof.
  assert (HS : exists J, SimN J (wU1 true) (wU1 false) /\ HB (w_heap (wU1 true))).
  { destruct (run_Sim histU [] _ _ (Sim_init true) (HB_init true) adm_U) as [HS HB].
    exists (fold_left J_after histU []). apply Sim_SimN in HS.
    destruct (step_mutate_SimN _ 0 (fun _ => Fin (PI / 3)) _ _ HS) as (_ & HS'). split; [exact HS'|].
    exact (step_HB (wU true) mutU HB). }
  destruct HS as (J & HS & Hb). rewrite (off_eval J (wU1 true) _ _ HS Hb).
  2: { intros _ r _ x []. }
  destruct (eval_volume (w_heap (wU1 true)) 0 rU [] (rU1_ok true)) as [X _]. rewrite X.
  rewrite (upd_rec_nil _ _ _ Hb (rU1_ok true)). apply (fullU true). cbn [thU]. rewrite cos_PI3. lra.
Qed.
Lemma oneU_ne x y a b : oneU x a -> oneU y b -> x <> y -> a <> b.
Proof. intros (u & -> & _ & Eu) (v & -> & _ & Ev) N E. assert (u = v) by congruence. subst v. congruence. Qed.

Theorem C05_refuted : ~ C05_intended.
Proof.
  intros H. specialize (H true histU 0 (fun _ => Fin (PI / 3)) (OVolume 0 []) 0 adm_U eq_refl).
  unfold asked_after in H. rewrite !run_snoc in H.
  pose proof mixed_U as Hm. pose proof old_U as Ho. pose proof new_U as Hn.
  unfold wU1, wU, mutU in Hm, Ho, Hn.
  match type of Hm with oneU _ ?y => set (ym := y) in *; clearbody ym end.
  match type of Ho with oneU _ ?y => set (yo := y) in *; clearbody yo end.
  match type of Hn with oneU _ ?y => set (yn := y) in *; clearbody yn end.
  pose proof PI_RGT_0 as HPI.
  assert (HP : (0 < 3 / (16 * PI))%R) by (apply Rdiv_lt_0_compat; lra).
  assert (S3 : (sin (PI / 3) * sin (PI / 3) = 3 / 4)%R).
  { pose proof (sin2_cos2 (PI / 3)) as X. unfold Rsqr in X. rewrite cos_PI3 in X. lra. }
  assert (He : (exp (- (1 / 1) - 1 / 1) < exp 0)%R) by (apply exp_increasing; lra). rewrite exp_0 in He.
  destruct H as [H|H]; revert H.
  - apply (oneU_ne _ _ _ _ Hm Ho). unfold volU. cbn [thU]. rewrite S3, cos_PI3, cos_0, sin_0. unfold p_rayleigh.
    intros E. replace (1 / 2 * (1 / 2) - 3 / 4)%R with (-1/2)%R in E by lra.
    assert (K : ((1 - exp (- (1 / 1) - 1 / 1)) * (3 / (16 * PI)) > 0)%R) by (apply Rmult_lt_0_compat; lra).
    nra.
  - apply (oneU_ne _ _ _ _ Hm Hn). unfold volU. cbn [thU]. rewrite S3, cos_PI3. unfold p_rayleigh.
    assert (Hf : (exp (- (1 / (1 / 2)) - 1 / (1 / 2)) < exp (- (1 / 1) - 1 / 1))%R) by (apply exp_increasing; lra).
    intros E. assert (K : (3 / (16 * PI) * (1 + (1 / 2 * (1 / 2) - 3 / 4) ^ 2) > 0)%R) by (apply Rmult_lt_0_compat; [assumption|lra]).
    apply Rmult_eq_reg_r in E; lra.
Qed.
Print Assumptions C05_refuted.

(** ** what holds: setting the geometry again (on any object) makes the change consistent *)
Definition geometry_call (p : op) : bool :=
  match p with OSetGeometry _ _ | OSetMono _ _ | OSetBi _ _ _ _ _ => true | _ => false end.
(** [dirty]: some array that serves as t_0 or t_ex may have been changed since the geometry was last set.
    In that situation the history only changes or creates arrays, or makes a geometry call that returns;
    otherwise the calls are the admissible ones ([adm1]), or the in-place change of any array. *)
Fixpoint refreshed (J : list nat) (w : world) (dirty : bool) (ps : list op) : Prop :=
  match ps with
  | [] => True
  | p :: ps' =>
      let w' := fst (step w p) in
      match p with
      | OMutate _ _ => refreshed J w' true ps'
      | _ =>
          if dirty then
            match p with
            | ONewArr _ => refreshed J w' true ps'
            | _ => geometry_call p = true /\ snd (step w p) = RetNone /\ refreshed J w' false ps'
            end
          else adm1 J (w_heap w) p /\ refreshed (J_after J p) w' false ps'
      end
  end.

Lemma cleared_step J w u p : geometry_call p = true -> SimN J w u ->
  snd (step w p) = snd (step u p) /\ (snd (step w p) = RetNone -> Sim J (fst (step w p)) (fst (step u p))).
Proof.
  intros Hg HS.
  assert (K : forall m : M unit, cleared J m -> snd (as_out none_of m w) = snd (as_out none_of m u) /\
     (snd (as_out none_of m w) = RetNone -> Sim J (fst (as_out none_of m w)) (fst (as_out none_of m u)))).
  { intros m Hm. destruct (Hm w u HS) as (X & _ & Z). unfold as_out. destruct (m w) as [w' y], (m u) as [u' y'].
    cbn [fst snd] in *. subst y'. destruct y as [a|e]; cbn [fst snd none_of].
    - split; [reflexivity|]. intros _. apply Z. eauto.
    - split; [reflexivity|]. discriminate. }
  destruct p; try discriminate Hg; cbn [step]; apply K.
  - apply cl_set_geometry. - apply cl_set_monostatic. - apply cl_set_bistatic.
Qed.
Lemma refreshed_run ps : forall J w u (dirty : bool), (if dirty then SimN J w u else Sim J w u) -> HB (w_heap w) ->
  refreshed J w dirty ps -> snd (run w ps) = snd (run u ps).
Proof.
  induction ps as [|p ps IH]; intros J w u dirty HS Hb Hr; [reflexivity|].
  rewrite !run_cons. cbn [snd]. pose proof (step_HB w p Hb) as Hb'.
  assert (HN : SimN J w u) by (destruct dirty; [exact HS|now apply Sim_SimN]).
  assert (Mut : forall aid f, p = OMutate aid f -> snd (step w p) :: snd (run (fst (step w p)) ps) = snd (step u p) :: snd (run (fst (step u p)) ps)).
  { intros aid f ->. destruct (step_mutate_SimN J aid f w u HN) as [E HS']. rewrite E. f_equal.
    exact (IH J _ _ true HS' Hb' Hr). }
  destruct dirty.
  - destruct p; try (destruct Hr as (Hg & _); discriminate Hg); try (now eapply Mut);
      [ | destruct Hr as (Hg & Hn & Hr); destruct (cleared_step J w u _ Hg HN) as [E HS']; rewrite E; f_equal;
          exact (IH J _ _ false (HS' Hn) Hb' Hr) .. ].
    destruct (add_arr_SimN J a w u HN) as [X Y].
    assert (Z : snd (step w (ONewArr a)) = snd (step u (ONewArr a)) /\ SimN J (fst (step w (ONewArr a))) (fst (step u (ONewArr a)))).
    { cbn [step]. unfold as_out. destruct (add_arr a w) as [w' y], (add_arr a u) as [u' y']. cbn [fst snd] in *. subst y'. auto. }
    destruct Z as [E HS']. rewrite E. f_equal. exact (IH J _ _ true HS' Hb' Hr).
  - assert (G : adm1 J (w_heap w) p /\ refreshed (J_after J p) (fst (step w p)) false ps ->
      snd (step w p) :: snd (run (fst (step w p)) ps) = snd (step u p) :: snd (run (fst (step u p)) ps)).
    { intros [Ha Hr']. destruct (step_sim J w u p HS Hb Ha) as [E HS']. rewrite E. f_equal.
      exact (IH _ _ _ false HS' Hb' Hr'). }
    destruct p; try exact (G Hr). now eapply Mut.
Qed.
(** every answer of such a history is the one computed from the present contents of the arrays *)
Theorem C05_partial : forall seng ps, refreshed [] (init seng true) false ps ->
  snd (run (init seng true) ps) = snd (run (init seng false) ps).
Proof. intros seng ps H. exact (refreshed_run ps [] _ _ false (Sim_init seng) (HB_init seng) H). Qed.
Print Assumptions C05_partial.

(** spelled out for one change: re-submitting the changed array makes every evaluation use the new angles *)
Theorem C05_set_geometry_again : forall seng ps aid f o kw q,
  let h := ps ++ [OMutate aid f; OSetGeometry o kw] in
  adm [] (init seng true) ps -> snd (step (fst (run (init seng true) (ps ++ [OMutate aid f]))) (OSetGeometry o kw)) = RetNone ->
  (forall J h, adm1 J h q) ->
  asked_after true seng h q = asked_after false seng h q.
Proof.
  intros seng ps aid f o kw q h Ha Hr Hq. subst h. unfold asked_after.
  change [OMutate aid f; OSetGeometry o kw] with ([OMutate aid f] ++ [OSetGeometry o kw]). rewrite !app_assoc, !run_snoc.
  rewrite !run_snoc in Hr.
  destruct (run_Sim ps [] _ _ (Sim_init seng) (HB_init seng) Ha) as [HS Hb].
  revert HS Hb Hr. generalize (fst (run (init seng true) ps)) (fst (run (init seng false) ps)). intros w u HS Hb Hr.
  apply Sim_SimN in HS. destruct (step_mutate_SimN _ aid f _ _ HS) as (_ & HS1).
  pose proof (step_HB w (OMutate aid f) Hb) as Hb1.
  destruct (cleared_step _ _ _ (OSetGeometry o kw) eq_refl HS1) as [_ HS2]. specialize (HS2 Hr).
  pose proof (step_HB _ (OSetGeometry o kw) Hb1) as Hb2.
  exact (proj1 (step_sim _ _ _ q HS2 Hb2 (Hq _ _))).
Qed.
Print Assumptions C05_set_geometry_again.

(** non-vacuous: the history of the counterexample, continued with the same set_geometry call *)
Definition againU : list op :=
  histU ++ [mutU; OSetGeometry 0 [("t_0", Some (PArr 0))]; OVolume 0 []; OReadAngle 0 T0].
Example C05_nonvacuous :
  refreshed [] (init true true) false againU /\
  (exists a, nth_error (snd (run (init true true) againU)) 9 = Some (RetArr a)).
Proof.
  split.
  - unfold againU, histU, mutU. cbn [app].
    repeat (first [ exact I | split; [try exact I; try (intros []); try reflexivity; try (vm_compute; reflexivity)|] ]).
    all: try exact I.
  - vm_compute. eexists. reflexivity.
Qed.
