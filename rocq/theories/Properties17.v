(** C43: calc() with missing parameters. *)
From Verif Require Export Properties16.
Open Scope string_scope.
Open Scope nat_scope.
Open Scope list_scope.

(** ** Specification *)
(** the string that defines R.tau (R.omega, ...) contains the symbol [s] *)
Definition def_uses (w : world) (o : nat) (p : pname) (s : string) : Prop :=
  exists r e, obj (w_heap w) o = Ok r /\ r_def r p = DStr e /\ In s (syms e).
(** the phase function of R.V (R.SRF) contains the symbol [s] *)
Definition fun_uses (w : world) (o : nat) (x : which) (s : string) : Prop :=
  exists sc, obs_fun w o x sc /\ In s (syms (phase_function sc)).
(** [s] is not an angle and has no value *)
Definition no_value (w : world) (o : nat) (s : string) : Prop :=
  ~ In s ["theta_0"; "theta_ex"; "phi_0"; "phi_ex"] /\ exists d, snd (step w (OParamDict o)) = RetDict d /\ dget d s = None.
Definition missing (w : world) (o : nat) (s : string) : Prop :=
  no_value w o s /\ ((exists p, def_uses w o p s) \/ (exists x, fun_uses w o x s)).
(** tau is not a number <= 0 (for which calc skips volume and interaction) *)
Definition layer_on (w : world) (o : nat) : Prop := forall t, obs_param w o Tau t -> shp t <> nil \/ xgt0 (get t nil) = true.

(** ** Evaluation of a definition with a missing symbol *)
Definition lacksym (C : config) (s : string) : Prop := ~ In s angle_names /\ ~ In s (dkeys (c_params C)).
Lemma p_eval_missing C p e s : (c_backend C = Symengine -> c_seng C = true) -> c_def C p = CStr e -> In s (syms e) -> ~ In s (dkeys (c_params C)) ->
  exists ms, p_eval C p = Err (MissingParams ms) /\ ms <> nil.
Proof.
  intros B D Hs N. unfold p_eval. rewrite D. unfold p_call, p_symbs. rewrite D.
  assert (L : lambdify (c_backend C) (c_seng C) (free_syms e) [e] = Ok (mk_comp (c_backend C) (free_syms e) [e])).
  { assert (Nd : no_dup_b (free_syms e) = true) by (apply no_dup_b_NoDup, NoDup_dedup). unfold lambdify. rewrite Nd. destruct (c_backend C); [reflexivity|].
    rewrite (B eq_refl). cbn [negb]. assert (S : subset_b (all_syms [e]) (free_syms e) = true); [|now rewrite S].
    apply subset_b_incl. unfold all_syms. cbn [flat_map]. rewrite app_nil_r. intros x Hx. now apply In_dedup. }
  rewrite L. cbn [rbind].
  assert (Hin : In s (free_syms e)) by now apply In_dedup.
  assert (R : exists er, rmap (p_lookup (c_params C)) (free_syms e) = Err er).
  { clear - Hin N. induction (free_syms e) as [|k l IH]; [contradiction|]. cbn [rmap]. destruct (p_lookup (c_params C) k) as [y|er] eqn:E; [|eexists; reflexivity]. cbn [rbind].
    destruct Hin as [->|Hin]; [|destruct (IH Hin) as [er ->]; eexists; reflexivity].
    exfalso. unfold p_lookup in E. apply dget_None_notin in N. rewrite N in E. discriminate. }
  destruct R as [er R]. rewrite R. cbn [rbind].
  assert (F : In s (filter (fun k => negb (mem k (dkeys (c_params C)))) (free_syms e))).
  { apply filter_In. split; [assumption|]. apply negb_true_iff. now apply mem_not_In. }
  destruct (filter _ (free_syms e)) as [|m ms]; [contradiction|]. eexists. split; [reflexivity|discriminate].
Qed.
Lemma p_missing_ok C v s : c_V C = Ok v -> c_SRF C = Ok s -> exists ms, p_missing C = Ok ms /\ NoDup ms /\
  forall x, In x ms <-> lacksym C x /\ ((exists p e, c_def C p = CStr e /\ In x (syms e)) \/ In x (syms (phase_function v)) \/ In x (syms (phase_function s))).
Proof.
  intros Ev Es. unfold p_missing. rewrite Ev, Es. cbn [rbind]. eexists. split; [reflexivity|]. unfold dedup_diff. split; [apply NoDup_filter, NoDup_dedup|].
  intros x. rewrite filter_In, In_dedup, negb_true_iff, mem_not_In, !in_app_iff. unfold free_syms. rewrite !In_dedup. unfold lacksym.
  assert (A : In x (p_all_symbs C) <-> exists p e, c_def C p = CStr e /\ In x (syms e)).
  { unfold p_all_symbs. rewrite !in_app_iff. assert (K : forall p, In x (p_symbs C p) <-> exists e, c_def C p = CStr e /\ In x (syms e)).
    { intros p. unfold p_symbs. split.
      - destruct (c_def C p) as [e|e|]; try (intros []). intros H. exists e. split; [reflexivity|now apply In_dedup].
      - intros (e & -> & H). now apply In_dedup. }
    rewrite !K. split; [intros [H|[H|[H|H]]]; eauto|]. intros ([] & H); tauto. }
  rewrite A. unfold not. tauto.
Qed.
Lemma p_handle_missing C ms0 x : (exists v s, c_V C = Ok v /\ c_SRF C = Ok s) -> lacksym C x ->
  ((exists p e, c_def C p = CStr e /\ In x (syms e)) \/ (exists sc, (c_V C = Ok sc \/ c_SRF C = Ok sc) /\ In x (syms (phase_function sc)))) ->
  exists ms, p_handle C (Err (MissingParams ms0)) = Err (MissingParams ms) /\ p_missing C = Ok ms.
Proof.
  intros (v & s & Ev & Es) L U. destruct (p_missing_ok C v s Ev Es) as (ms & E & _ & I). unfold p_handle. rewrite E. cbn [rbind].
  assert (In x ms). { apply I. split; [assumption|]. destruct U as [U|(sc & [X|X] & U)]; [auto| |]; [right; left|right; right]; congruence. }
  destruct ms as [|m ms]; [contradiction|]. eauto.
Qed.

(** from the observations to the configuration *)
Section At.
  Context (w : world) (o : nat) (r : rt1) (q : op).
  Hypothesis G : good w q.
  Hypothesis Hr : obj (w_heap w) o = Ok r.
  Notation C := (conf (w_heap w) r).
  Lemma no_value_conf s : no_value w o s -> lacksym C s.
  Proof.
    intros (A & d & Hd & N). split; [exact A|]. apply (obs_dict_conf w _ o r G Hr) in Hd. rewrite <- (p_params_keys _ _ Hd). now apply dget_None_notin.
  Qed.
  Lemma conf_no_value s d : p_params C = Ok d -> lacksym C s -> no_value w o s.
  Proof.
    intros Hd [A N]. split; [exact A|]. exists d. split; [now apply (obs_dict_conf w _ o r G Hr)|]. apply dget_None_notin. now rewrite (p_params_keys _ _ Hd).
  Qed.
  Lemma def_uses_conf p s : def_uses w o p s <-> exists e, c_def C p = CStr e /\ In s (syms e).
  Proof.
    split.
    - intros (r' & e & H & D & I). assert (r' = r) by congruence. subst r'. exists e. cbn [conf c_def]. now rewrite D.
    - intros (e & D & I). exists r, e. cbn [conf c_def] in D. split; [assumption|]. destruct (r_def r p); cbn [cdef_of] in D; try discriminate. split; [congruence|assumption].
  Qed.
  Lemma obs_fun_conf x sc : obs_fun w o x sc <-> match x with WV => c_V C | WSRF => c_SRF C end = Ok sc.
  Proof.
    unfold obs_fun. split.
    - intros (r' & H & E). assert (r' = r) by congruence. subst r'. now destruct x.
    - intros E. exists r. split; [assumption|]. now destruct x.
  Qed.
  Lemma missing_conf s d v sf : p_params C = Ok d -> c_V C = Ok v -> c_SRF C = Ok sf ->
    missing w o s <-> lacksym C s /\ ((exists p e, c_def C p = CStr e /\ In s (syms e)) \/ In s (syms (phase_function v)) \/ In s (syms (phase_function sf))).
  Proof.
    intros Hd Ev Es. unfold missing. split.
    - intros [N U]. split; [now apply no_value_conf|]. destruct U as [(p & U)|(x & sc & U & I)].
      + left. exists p. now apply def_uses_conf.
      + apply obs_fun_conf in U. right. destruct x; [left|right]; congruence.
    - intros [N U]. split; [now apply (conf_no_value s d)|]. destruct U as [(p & U)|[U|U]].
      + left. exists p. now apply def_uses_conf.
      + right. exists WV, v. split; [now apply obs_fun_conf|assumption].
      + right. exists WSRF, sf. split; [now apply obs_fun_conf|assumption].
  Qed.
End At.

Lemma p_scat_missing C x sc s v : match x with WV => c_V C | WSRF => c_SRF C end = Ok sc -> In s (syms (phase_function sc)) -> lacksym C s -> p_scat C x <> Ok v.
Proof.
  intros E I [A N] H. unfold p_scat in H. destruct (p_read C T0); [cbn [rbind] in H|discriminate]. destruct (p_read C TEx); [cbn [rbind] in H|discriminate].
  destruct (p_read C P0); [cbn [rbind] in H|discriminate]. destruct (p_read C PEx); [cbn [rbind] in H|discriminate].
  destruct (p_params C) as [kw|] eqn:Ek; [cbn [rbind] in H|discriminate]. rewrite E in H. cbn [rbind] in H.
  destruct (lambdify _ _ _ _) as [f|] eqn:L; [cbn [rbind] in H|discriminate]. destruct (lambdify_Ok _ _ _ _ _ L) as (-> & _ & Hs).
  unfold call1 in H. destruct (call _ _ _) as [l|] eqn:Ec; [|discriminate]. apply call_syms in Ec.
  - cbn [c_exprs c_vars] in Ec. specialize (Ec s). unfold all_syms in Ec. cbn [flat_map] in Ec. rewrite app_nil_r in Ec. specialize (Ec I).
    apply in_app_iff in Ec. rewrite (p_params_keys _ _ Ek) in Ec. tauto.
  - cbn [c_be c_exprs c_vars]. intros X. apply subset_b_incl. now apply Hs.
Qed.

(** *** C43.  No value is ever computed while a needed symbol is missing: calc() raises. *)
Theorem C43_never_a_value : forall w o s, good w (OCalc o nil) -> missing w o s -> layer_on w o ->
  exists e, snd (step w (OCalc o nil)) = Raised e.
Proof.
  intros w o s G [N U] T. destruct (obj (w_heap w) o) as [r|] eqn:Hr.
  2:{ destruct U as [(p & r & e1 & H & _)|(x & sc & (r & H & _) & _)]; congruence. }
  pose proof (no_value_conf w o r _ G Hr s N) as L. destruct (good_keys _ _ G) as [_ B].
  rewrite (calc_nil _ _ _ _ G (ex_intro _ r (conj Hr (conj eq_refl eq_refl)))). set (C := conf (w_heap w) r) in *. generalize (fnev_next (w_heap w) r). intros fe.
  assert (Ht : forall t, p_eval C Tau = Ok (t, true) -> xgt0 (get t []) = true).
  { intros t Et. destruct (T t) as [X|X]; [|destruct X; eapply p_eval_num; exact Et|exact X].
    apply (obs_param_conf w _ o r G Hr). unfold p_val. fold C. now rewrite Et. }
  assert (X : forall p, def_uses w o p s -> forall a, p_val C p <> Ok a).
  { intros p D a E. apply (def_uses_conf w o r Hr) in D. destruct D as (e & D & I). destruct (p_eval_missing C p e s B D I (proj2 L)) as (ms & Em & _).
    unfold p_val in E. now rewrite Em in E. }
  assert (Bd : forall a, p_calc_body C fe <> Ok a).
  { intros a E. unfold p_calc_body in E. destruct (p_parts C fe) as [pp|] eqn:Ep; [clear E|discriminate]. unfold p_parts in Ep.
    assert (V : (exists t b, p_eval C Tau = Ok (t, b)) /\ (exists sf, p_surface C = Ok sf) /\ exists vf, p_volume C = Ok vf).
    { destruct (p_eval C Tau) as [[t b]|]; [cbn [rbind] in Ep|discriminate]. destruct (p_surface C) as [sf|]; [cbn [rbind] in Ep|destruct b; discriminate].
      split; [eauto|]. split; [eauto|]. destruct b; [rewrite (Ht t eq_refl) in Ep|]; (destruct (p_volume C) as [vf|]; [eauto|discriminate]). }
    clear Ep. destruct V as ((t & b & Et) & (sf & Es) & (vf & Ev)).
    pose proof (p_surface_inv _ _ Es) as (i0 & mu0 & muex & tau & srf & norm & bsf & (I1 & I2 & I3 & I4) & Sc & Sn & Sb & _).
    pose proof (p_volume_inv _ _ Ev) as (j0 & m0 & e0 & t' & o0 & n0 & bb0 & (J1 & J2 & J3 & J4) & V1 & V2 & V3 & _).
    destruct U as [([] & D)|(x & sc & F & I)]; [eapply X; eassumption..|].
    apply (obs_fun_conf w o r Hr) in F. fold C in F. destruct x; [exact (p_scat_missing C WV sc s _ F I L V1)|exact (p_scat_missing C WSRF sc s _ F I L Sc)]. }
  unfold p_calc, p_handle. destruct (p_calc_body C fe) as [a|e]; [now destruct (Bd a)|]. cbn [outA].
  destruct e; try (eexists; reflexivity); (destruct (p_missing C) as [[|]|]; eexists; reflexivity).
Qed.
Print Assumptions C43_never_a_value.

(** The full claim: TypeError naming the missing symbols. *)
Definition C43_intended : Prop := forall w o s, good w (OCalc o nil) -> missing w o s -> layer_on w o ->
  (forall a, exists x, obs_angle w o a x) ->
  exists ms, snd (step w (OCalc o nil)) = Raised (MissingParams ms) /\ In s ms.

(** the definition of [p] has all its symbols and can be read, or lacks one *)
Definition readable_or_lacking (w : world) (o : nat) (p : pname) : Prop :=
  (exists t, obs_param w o p t) \/ exists s, no_value w o s /\ def_uses w o p s.

(** Proved part: a symbol of a definition is missing and everything evaluated before it can be evaluated (for tau,
    NormBRDF and bsf: the surface scattering function; for omega: surface()).  Then the exception names exactly the
    missing symbols, each once. *)
Theorem C43_partial : forall w o p s v srf,
  good w (OCalc o nil) -> no_value w o s -> def_uses w o p s -> obs_fun w o WV v -> obs_scat w o WSRF srf -> (exists i0, obs_I0 w o i0) ->
  (p <> Omega -> forall q, q <> Omega -> readable_or_lacking w o q) ->
  (p = Omega -> layer_on w o /\ exists a, snd (step w (OSurface o nil)) = RetArr a) ->
  exists ms, snd (step w (OCalc o nil)) = Raised (MissingParams ms) /\ NoDup ms /\ forall x, In x ms <-> missing w o x.
Proof.
  intros w o p s v srf G N D Fv Sc (i0 & Hi) R RO. pose proof D as (r & e & Hr & _).
  pose proof (no_value_conf w o r _ G Hr s N) as L. destruct (good_keys _ _ G) as [_ B]. change (c_backend (conf (w_heap w) r) = Symengine -> c_seng (conf (w_heap w) r) = true) in B.
  apply (obs_fun_conf w o r Hr) in Fv. apply (obs_scat_conf w _ o r G Hr) in Sc. apply (obs_I0_conf w o r Hr) in Hi.
  pose proof N as (_ & d & Hd & _). apply (obs_dict_conf w _ o r G Hr) in Hd.
  assert (Sf : exists sf, c_SRF (conf (w_heap w) r) = Ok sf).
  { revert Sc. unfold p_scat. destruct (c_SRF (conf (w_heap w) r)) as [sf|]; [eauto|]. destruct (p_read _ T0); [cbn [rbind]|discriminate]. destruct (p_read _ TEx); [cbn [rbind]|discriminate].
    destruct (p_read _ P0); [cbn [rbind]|discriminate]. destruct (p_read _ PEx); [cbn [rbind]|discriminate]. rewrite Hd. discriminate. }
  destruct Sf as [sf Esf].
  assert (GS : good w (OSurface o nil)) by (eapply good_other; [exact G|]; intros; apply adm_nil).
  assert (M : forall x, missing w o x <-> _) by (intros x; exact (missing_conf w o r _ G Hr x d v sf Hd Fv Esf)).
  rewrite (calc_nil _ _ _ _ G (ex_intro _ r (conj Hr (conj eq_refl eq_refl)))). rewrite (surface_nil _ _ _ _ GS (ex_intro _ r (conj Hr (conj eq_refl eq_refl)))) in RO.
  assert (Ob : forall q t, obs_param w o q t -> p_val (conf (w_heap w) r) q = Ok t) by (intros q t; apply (obs_param_conf w _ o r G Hr)).
  assert (Dq : forall q x, def_uses w o q x -> exists e, c_def (conf (w_heap w) r) q = CStr e /\ In x (syms e)) by (intros q x; apply (def_uses_conf w o r Hr)).
  assert (Nq : forall x, no_value w o x -> lacksym (conf (w_heap w) r) x) by (intros x; apply (no_value_conf w o r _ G Hr)).
  assert (Tn : layer_on w o -> forall t, p_eval (conf (w_heap w) r) Tau = Ok (t, true) -> xgt0 (get t []) = true).
  { intros T t Et. destruct (T t) as [X|X]; [|destruct X; eapply p_eval_num; exact Et|exact X].
    apply (obs_param_conf w _ o r G Hr). unfold p_val. now rewrite Et. }
  generalize (fnev_next (w_heap w) r). intros fe. set (C := conf (w_heap w) r) in *. clearbody C.
  destruct (p_missing_ok C v sf Fv Esf) as (ms & Em & Nd & I). exists ms. split; [|split; [assumption|intros x; rewrite M; apply I]].
  assert (K : forall q x, no_value w o x -> def_uses w o q x -> exists l, p_eval C q = Err (MissingParams l)).
  { intros q x A Y. destruct (Dq _ _ Y) as (e' & De & Ie). destruct (p_eval_missing C q e' x B De Ie (proj2 (Nq _ A))) as (l & -> & _). eauto. }
  assert (H : exists l, p_calc_body C fe = Err (MissingParams l)).
  { assert (H : exists l, p_parts C fe = Err (MissingParams l)); [|destruct H as [l H]; exists l; unfold p_calc_body; now rewrite H].
    assert (Rd : exists t0 tex, p_read C T0 = Ok t0 /\ p_read C TEx = Ok tex).
    { revert Sc. unfold p_scat. destruct (p_read C T0); [cbn [rbind]|discriminate]. destruct (p_read C TEx); [|discriminate]. eauto. }
    destruct Rd as (t0 & tex & R0 & Rx).
    destruct (K p s N D) as [lp Kp].
    assert (Q : p = Omega \/ p <> Omega) by (destruct p; ((left; reflexivity) || (right; discriminate))). destruct Q as [->|Q].
    - destruct (RO eq_refl) as [T [a Ha]]. destruct (p_surface C) as [sff|] eqn:Es; [clear Ha|discriminate].
      pose proof (p_surface_inv _ _ Es) as (j0 & mu0 & muex & tau & srf' & norm & bsf & (I1 & I2 & I3 & I4) & _).
      destruct (p_val_ex _ _ _ I4) as [b Et].
      assert (V : p_volume C = Err (MissingParams lp)). { unfold p_volume. rewrite I1. cbn [rbind]. unfold p_val at 1. now rewrite Kp. }
      exists lp. unfold p_parts. rewrite Et. cbn [rbind]. rewrite Es, V. cbn [rbind]. destruct b; [|reflexivity]. now rewrite (Tn T _ Et).
    - specialize (R Q). assert (RV : forall q, q <> Omega -> (exists t b, p_eval C q = Ok (t, b)) \/ exists l, p_eval C q = Err (MissingParams l)).
      { intros q Hq. destruct (R q Hq) as [[t Ot]|(x & A & Y)]; [left|right; now apply (K q x)]. apply Ob in Ot. destruct (p_val_ex _ _ _ Ot) as [b Et]. eauto. }
      assert (Sv : (exists t b, p_eval C Tau = Ok (t, b)) -> exists l, p_surface C = Err (MissingParams l)).
      { intros (t & b & Et). unfold p_surface. rewrite Hi. cbn [rbind]. unfold p_mu0, p_muex. rewrite R0, Rx. cbn [rbind]. rewrite Sc. cbn [rbind]. unfold p_val. rewrite Et. cbn [rbind].
        destruct (RV NormBRDF) as [(t1 & b1 & E1)|(l & E1)]; [discriminate| |rewrite E1; eexists; reflexivity]. rewrite E1. cbn [rbind].
        destruct (RV Bsf) as [(t2 & b2 & E2)|(l & E2)]; [discriminate| |rewrite E2; eexists; reflexivity].
        destruct p; congruence. }
      unfold p_parts. destruct (RV Tau) as [(t & b & Et)|(l & Et)]; [discriminate| |rewrite Et; eexists; reflexivity].
      destruct (Sv (ex_intro _ t (ex_intro _ b Et))) as [l Es]. rewrite Et. cbn [rbind]. rewrite Es. destruct b; eexists; reflexivity. }
  destruct H as [l H]. unfold p_calc. rewrite H. 
  assert (Hin : In s ms). { apply I. split; [now apply Nq|]. left. exists p. now apply Dq. }
  unfold p_handle. rewrite Em. cbn [rbind]. destruct ms; [contradiction|reflexivity].
Qed.
Print Assumptions C43_partial.

(** ** Witnesses: parameters [ps] given, tau = 2*k, NormBRDF = 1/4, omega the parameter of that name *)
Definition histM (ps : dict pyval) : list op :=
  [ ONewScat (VHG (ESym "t") (Some 2) a_vol); ONewScat (SIso a_srf);
    ONew (Some 0) (Some 1) false true false None None (PNum (Fin 2));
    ONewArr (mk_nd [2] (fun i => Fin (match i with [0] => 1/2 | _ => 1 end)));
    OSetDef 0 Tau (DStr (EMul (ENum 2) (ESym "k")));
    OSetDef 0 NormBRDF (DVal (PNum (Fin (1/4))));
    OSetGeometry 0 [("t_0", Some (PArr 0)); ("p_0", Some (PNum (Fin 0)))];
    OUpdate 0 ps ].
Definition wM (seng : bool) (ps : dict pyval) : world := fst (run (init seng true) (histM ps)).
Lemma wM_good seng ps p : (forall J h, adm1 J h p) -> good (wM seng ps) p.
Proof. intros H. exists seng, (histM ps). split; [|reflexivity]. unfold histM. cbn [app]. repeat (split; [try exact I|]); try exact I; try apply H; intros []. Qed.
(** V's symbol t is missing: the evaluation fails with the backend's own exception (symengine: RuntimeError, sympy: NameError) *)
Definition psT : dict pyval := [("k", PArr 0); ("omega", PNum (Fin (1/3)))].
Theorem C43_refuted : ~ C43_intended.
Proof.
  intros Q. destruct (Q (wM true psT) 0 "t") as (ms & E & _).
  - apply wM_good; intros; apply adm_nil.
  - split.
    + split; [cbn; intros [X|[X|[X|[X|[]]]]]; discriminate X|]. eexists. split; [vm_compute; reflexivity|reflexivity].
    + right. exists WV. eexists. split; [eexists; split; [vm_compute; reflexivity|vm_compute; reflexivity]|]. vm_compute. now left.
  - intros t H. left. assert (X : out_shape (wM true psT) (OReadParam 0 Tau) = Some [2]) by (vm_compute; reflexivity).
    unfold out_shape in X. unfold obs_param in H. rewrite H in X. inversion X as [Y]. rewrite Y. discriminate.
  - intros a. unfold obs_angle. apply is_arr_ex. destruct a; vm_compute; reflexivity.
  - assert (X : snd (step (wM true psT) (OCalc 0 nil)) = Raised RuntimeError) by (vm_compute; reflexivity). congruence.
Qed.
Print Assumptions C43_refuted.
Example C43_sympy_name_error : snd (step (wM false psT) (OCalc 0 nil)) = Raised NameError.
Proof. vm_compute. reflexivity. Qed.
Example C43_nonvacuous : exists w v srf, good w (OCalc 0 nil) /\ no_value w 0 "k" /\ def_uses w 0 Tau "k" /\ no_value w 0 "omega" /\ def_uses w 0 Omega "omega" /\
  obs_fun w 0 WV v /\ obs_scat w 0 WSRF srf /\ (exists i0, obs_I0 w 0 i0) /\ (forall q, q <> Omega -> readable_or_lacking w 0 q) /\
  snd (step w (OCalc 0 nil)) = Raised (MissingParams ["k"; "omega"; "t"]).
Proof.
  assert (NV : forall s, In s ["k"; "omega"] -> no_value (wM true nil) 0 s).
  { intros s Hs. split; [cbn; destruct Hs as [<-|[<-|[]]]; intros [X|[X|[X|[X|[]]]]]; discriminate X|].
    eexists. split; [vm_compute; reflexivity|]. destruct Hs as [<-|[<-|[]]]; reflexivity. }
  assert (DU : def_uses (wM true nil) 0 Tau "k") by (eexists; eexists; split; [vm_compute; reflexivity|split; [vm_compute; reflexivity|vm_compute; auto]]).
  assert (DO : def_uses (wM true nil) 0 Omega "omega") by (eexists; eexists; split; [vm_compute; reflexivity|split; [vm_compute; reflexivity|vm_compute; auto]]).
  exists (wM true nil); eexists; eexists. split; [apply wM_good; intros; apply adm_nil|]. split; [apply NV; now left|]. split; [exact DU|]. split; [apply NV; right; now left|]. split; [exact DO|].
  split; [eexists; split; [vm_compute; reflexivity|vm_compute; reflexivity]|].
  split; [eexists; eexists; eexists; eexists; eexists; eexists; split; [vm_compute; reflexivity|]; do 5 (split; [vm_compute; reflexivity|]); vm_compute; reflexivity|].
  split; [eexists; eexists; split; [vm_compute; reflexivity|vm_compute; reflexivity]|].
  split; [|vm_compute; reflexivity]. intros q Hq. destruct q; [right|congruence|left|left].
  - exists "k". split; [apply NV; now left|exact DU].
  - unfold obs_param. apply is_arr_ex. vm_compute. reflexivity.
  - unfold obs_param. apply is_arr_ex. vm_compute. reflexivity.
Qed.
