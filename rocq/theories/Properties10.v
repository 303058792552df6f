(** What the memoised fn-functions do to later calls: C08, C09, C12. *)
From Coq Require Import Permutation.
From Verif Require Export Memo.
Open Scope string_scope.
Open Scope nat_scope.
Open Scope list_scope.

(** ** Observations *)
(** the parameter names in R.param_dict, in order *)
Definition current_names (w : world) (o : nat) (names : list string) : Prop :=
  exists r, obj (w_heap w) o = Ok r /\ names = dkeys (r_params r).
(** R holds fn-functions compiled for the angles and these parameter names / none yet *)
Definition compiled_for (w : world) (o : nat) (names : list string) : Prop :=
  exists r k, obj (w_heap w) o = Ok r /\ r_fnev r = Some k /\ c_vars k = fn_angle_names ++ names.
Definition not_compiled (w : world) (o : nat) : Prop := exists r, obj (w_heap w) o = Ok r /\ r_fnev r = None.
(** the held functions, if any, are compiled for the present names *)
Definition names_current (w : world) (o : nat) : Prop :=
  not_compiled w o \/ exists names, current_names w o names /\ compiled_for w o names.

(** *** C08.  After any history an object holds no compiled fn-functions, or functions compiled for an
    initial part of its present parameter names. *)
Theorem C08_signature : forall seng on ps o names,
  let w := fst (run (init seng on) ps) in
  current_names w o names -> not_compiled w o \/ exists old added, compiled_for w o old /\ names = old ++ added.
Proof.
  intros seng on ps o names w (r & Hr & ->).
  assert (K : Kinv None (w_heap w)).
  { apply run_Kinv; [apply Forall_forall; intros q _; destruct q; try exact I; cbn; discriminate|].
    split; [discriminate|]. intros i ri H. unfold obj in H. simpl in H. destruct i; discriminate. }
  destruct (r_fnev r) as [k|] eqn:Ek; [right|left; exists r; auto].
  destruct (proj2 K o r Hr) as [_ K2]. destruct (K2 k Ek) as (_ & _ & sg & ks & ex & L & E). exists ks, ex. split; [|exact E].
  exists r, k. split; [assumption|]. split; [assumption|]. destruct (lambdify_Ok _ _ _ _ _ L) as (Hk & _). rewrite Hk. reflexivity.
Qed.
Print Assumptions C08_signature.

Lemma up_to_date_current w o r : obj (w_heap w) o = Ok r -> names_current w o <-> up_to_date r.
Proof.
  intros Hr. unfold names_current, not_compiled, compiled_for, current_names, up_to_date. split.
  - intros [(r1 & H1 & N)|(names & (r1 & H1 & ->) & r2 & k & H2 & Ek & V)].
    + assert (r1 = r) by congruence. subst r1. intros k. rewrite N. discriminate.
    + assert (r1 = r) by congruence. assert (r2 = r) by congruence. subst r1 r2. intros k' Hk'. congruence.
  - intros U. destruct (r_fnev r) as [k|] eqn:Ek; [|left; eauto]. right. exists (dkeys (r_params r)). split; [eauto|]. exists r, k. split; [assumption|]. split; [assumption|]. now apply U.
Qed.

(** the interaction term is evaluated: what comes out *)
Lemma interaction_eq w o kw r : good w (OInteraction o kw) -> obj (w_heap w) o = Ok r ->
  let C := conf (w_heap w) (upd_rec r kw) in
  snd (step w (OInteraction o kw)) = outA (let* v := p_interaction C (fnev_next (w_heap w) (upd_rec r kw)) in p_convert C v).
Proof. intros G Hr C. destruct (good_eval _ _ G) as (_ & -> & _). now destruct (eval_interaction _ _ _ kw Hr). Qed.
Lemma calc_eq w o kw r : good w (OCalc o kw) -> obj (w_heap w) o = Ok r ->
  snd (step w (OCalc o kw)) = outA (p_calc (conf (w_heap w) (upd_rec r kw)) (fnev_next (w_heap w) (upd_rec r kw))).
Proof. intros G Hr. destruct (good_eval _ _ G) as (_ & -> & _). now destruct (eval_calc _ _ _ kw Hr). Qed.

(** the names in R.param_dict after update_params(kw) *)
Definition names_with (w : world) (o : nat) (kw : dict pyval) (names : list string) : Prop :=
  current_names (fst (step w (OUpdate o kw))) o names.
Lemma names_with_rec w o kw names r : obj (w_heap w) o = Ok r -> names_with w o kw names <-> names = dkeys (r_params (upd_rec r kw)).
Proof.
  intros Hr. unfold names_with, current_names. cbn [step]. rewrite fst_as_out. destruct (proj1 (eff_update o kw) w r Hr) as [E _].
  assert (Ho : obj (w_heap (fst (update_params o kw w))) o = Ok (upd_rec r kw)) by (rewrite E; eapply obj_put_same; eassumption).
  split; [intros (r' & H & ->); congruence|]. intros ->. eauto.
Qed.

(** interaction() raises if a name was added after the functions were compiled *)
Theorem C08_added_name_raises : forall w o kw old names,
  good w (OInteraction o kw) -> compiled_for w o old -> names_with w o kw names -> names <> old ->
  exists e, snd (step w (OInteraction o kw)) = Raised e.
Proof.
  intros w o kw old names G (r & k & Hr & Ek & V) Hn N. apply (names_with_rec _ _ _ _ _ Hr) in Hn. subst names.
  rewrite (interaction_eq _ _ _ _ G Hr). destruct (good_keys _ _ G) as [K _].
  pose proof (upd_key_ok _ _ kw (proj2 K o r Hr)) as K1.
  destruct (p_interaction _ _) as [a|e] eqn:E; [exfalso|eexists; reflexivity]. revert E.
  apply (stale_interaction _ _ _ k _ K1); [exact Ek|]. rewrite V. intros X. apply app_inv_head in X. congruence.
Qed.
Print Assumptions C08_added_name_raises.
(** so does calc() with int_Q=True if tau is an array or a positive number *)
Theorem C08_added_name_calc_raises : forall w o kw old names,
  good w (OCalc o kw) -> compiled_for w o old -> names_with w o kw names -> names <> old ->
  (exists r, obj (w_heap w) o = Ok r /\ r_intQ r = true /\
     forall t, p_eval (conf (w_heap w) (upd_rec r kw)) Tau = Ok (t, true) -> xgt0 (get t nil) = true) ->
  exists e, snd (step w (OCalc o kw)) = Raised e.
Proof.
  intros w o kw old names G (r & k & Hr & Ek & V) Hn N (r1 & Hr1 & Q & Ht). assert (r1 = r) by congruence. subst r1.
  apply (names_with_rec _ _ _ _ _ Hr) in Hn. subst names.
  rewrite (calc_eq _ _ _ _ G Hr). destruct (good_keys _ _ G) as [K _].
  pose proof (upd_key_ok _ _ kw (proj2 K o r Hr)) as K1.
  assert (S : forall a, p_interaction (conf (w_heap w) (upd_rec r kw)) (fnev_next (w_heap w) (upd_rec r kw)) <> Ok a).
  { intros a. apply (stale_interaction _ _ _ k _ K1); [exact Ek|]. rewrite V. intros X. apply app_inv_head in X. congruence. }
  set (C := conf (w_heap w) (upd_rec r kw)) in *. set (fe := fnev_next (w_heap w) (upd_rec r kw)) in *.
  assert (B : forall a, p_calc_body C fe <> Ok a).
  { intros a. unfold p_calc_body, p_parts. destruct (p_eval C Tau) as [[t b]|] eqn:Et; [cbn [rbind]|discriminate].
    assert (Qc : c_intQ C = true) by exact Q. rewrite Qc.
    destruct b; (destruct (p_surface C) as [sf|]; [cbn [rbind]|discriminate]).
    - rewrite (Ht t eq_refl). destruct (p_volume C) as [vf|]; [cbn [rbind]|discriminate].
      destruct (p_interaction C fe) as [x|] eqn:E; [now destruct (S x)|discriminate].
    - destruct (p_volume C) as [vf|]; [cbn [rbind]|discriminate].
      destruct (p_interaction C fe) as [x|] eqn:E; [now destruct (S x)|discriminate]. }
  unfold p_calc, p_handle. destruct (p_calc_body C fe) as [a|e]; [now destruct (B a)|].
  destruct e; try (eexists; reflexivity); (destruct (p_missing C) as [[|s l]|]; eexists; reflexivity).
Qed.
Print Assumptions C08_added_name_calc_raises.

(** otherwise every symbol is evaluated with the present value of the angle or parameter with that name:
    the coefficient arrays that enter the result *)
Theorem C08_by_name : forall w o kw a,
  good w (OInteraction o kw) -> snd (step w (OInteraction o kw)) = RetArr a ->
  (exists r, obj (w_heap w) o = Ok r /\ r_fnevals_input r = None) ->
  let w' := fst (step w (OInteraction o kw)) in
  exists r fns t0 tex p0 pex d fv1 fv2 n mu0 muex mux0 muxex tau F1 F2 om norm bsf i0 s,
    obj (w_heap w') o = Ok r /\
    obs_angle w' o T0 t0 /\ obs_angle w' o TEx tex /\ obs_angle w' o P0 p0 /\ obs_angle w' o PEx pex /\
    snd (step w' (OParamDict o)) = RetDict d /\
    obs_param w' o Tau tau /\ obs_param w' o Omega om /\ obs_param w' o NormBRDF norm /\ obs_param w' o Bsf bsf /\ obs_I0 w' o i0 /\
    incl (all_syms fns) (fn_angle_names ++ dkeys d) /\
    Forall2 (fun e x => forall i, bget x i = evalX (env_at t0 tex p0 pex d i) e) fns fv1 /\
    Forall2 (fun e x => forall i, bget x i = evalX (env_at tex t0 pex p0 d i) e) fns fv2 /\
    k_mux n mu0 = Ok mux0 /\ k_mux n muex = Ok muxex /\ mu0 = ncos t0 /\ muex = ncos tex /\
    k_Fint n fv1 mux0 mu0 tau = Ok F1 /\ k_Fint n fv2 muxex muex tau = Ok F2 /\
    k_interaction i0 mu0 muex om tau norm bsf F1 F2 = Ok s /\ p_convert (conf (w_heap w') r) s = Ok a.
Proof.
  intros w o kw a G E (r0 & Hr0 & Hi) w'.
  destruct (good_eval _ _ G) as (Hb & _ & Eh). destruct (eval_interaction (w_heap w) o r0 kw Hr0) as [_ HA].
  rewrite (interaction_eq _ _ _ _ G Hr0) in E.
  destruct (obj_after _ _ _ _ _ Hr0 HA) as (r & Hr & St & Hc & Hf). rewrite <- Eh in Hr, Hc, Hf. fold w' in Hr, Hc, Hf.
  rewrite <- Hc, <- Hf in E. set (C := conf (w_heap w') r) in *.
  destruct (p_interaction C (fnev_next (w_heap w') r)) as [s|] eqn:Es; [|discriminate]. cbn [rbind] in E.
  assert (Ec : p_convert C s = Ok a) by (destruct (p_convert C s); [now inversion E|discriminate]).
  assert (G' : good w' (OParamDict o)) by (apply good_next; [exact G|intros J; exact I]).
  destruct (good_keys _ _ G') as [K _]. pose proof (proj2 K o r Hr) as [_ K2].
  assert (Hi' : r_fnevals_input r = None).
  { transitivity (r_fnevals_input (upd_rec r0 kw)); [now injection St|exact Hi]. }
  unfold p_interaction in Es. destruct (fnev_next (w_heap w') r) as [[k|]|e] eqn:Ef.
  2:{ exfalso. unfold p_Fint in Es. destruct (p_read C T0); [cbn [rbind] in Es|discriminate]. destruct (p_read C P0); [cbn [rbind] in Es|discriminate].
      destruct (p_read C TEx); [cbn [rbind] in Es|discriminate]. destruct (p_read C PEx); [cbn [rbind] in Es|discriminate].
      destruct (p_params C); [cbn [rbind] in Es|discriminate]. destruct (broadcast_arrays _); discriminate Es. }
  2:{ exfalso. unfold p_Fint in Es. destruct (p_read C T0); [cbn [rbind] in Es|discriminate]. destruct (p_read C P0); [cbn [rbind] in Es|discriminate].
      destruct (p_read C TEx); [cbn [rbind] in Es|discriminate]. destruct (p_read C PEx); [cbn [rbind] in Es|discriminate].
      destruct (p_params C); [cbn [rbind] in Es|discriminate]. destruct (broadcast_arrays _); discriminate Es. }
  assert (L : exists sg ks ex, lambdify (c_be k) sg (fn_angle_names ++ ks) (c_exprs k) = Ok k /\ dkeys (c_params C) = ks ++ ex).
  { unfold C. cbn [conf c_params]. rewrite dkeys_map. unfold fnev_next in Ef. rewrite Hi' in Ef. destruct (r_fnev r) as [k'|] eqn:Ek.
    - inversion Ef; subst k'. destruct (K2 k eq_refl) as (_ & _ & X). exact X.
    - destruct (r_intQ r); [|discriminate]. unfold p_comp in Ef. destruct (fn_next _ r) as [[es|]|]; try discriminate. cbn [rbind] in Ef.
      destruct (lambdify _ _ _ es) as [c|] eqn:El; [|discriminate]. cbn [rbind] in Ef. inversion Ef; subst c.
      destruct (lambdify_Ok _ _ _ _ _ El) as (Hk & _). cbn [conf c_params] in El. rewrite dkeys_map in El.
      exists (h_seng (w_heap w')), (dkeys (r_params r)), nil. rewrite app_nil_r. split; [|reflexivity]. rewrite Hk at 1 2. cbn [c_be c_exprs]. exact El. }
  destruct L as (sg & ks & ex & L & Kk).
  destruct (p_Fint C (Ok (Some k)) true) as [F1|] eqn:E1; [cbn [rbind] in Es|discriminate].
  destruct (p_Fint C (Ok (Some k)) false) as [F2|] eqn:E2; [cbn [rbind] in Es|discriminate].
  destruct (Fint_inv _ _ _ _ _ _ _ _ E1 L Kk) as (t0 & p0 & tex & pex & d & n & mu & mux & tau & fv & A1 & A2 & A3 & A4 & A5 & A6 & A7 & A8 & A9 & A10 & _ & A12 & _ & _ & A13).
  destruct (Fint_inv _ _ _ _ _ _ _ _ E2 L Kk) as (t0' & p0' & tex' & pex' & d' & n' & mu' & mux' & tau' & fv' & B1 & B2 & B3 & B4 & B5 & B6 & B7 & B8 & B9 & B10 & _ & B12 & _ & _ & B13).
  rewrite A1 in B1. rewrite A2 in B2. rewrite A3 in B3. rewrite A4 in B4. rewrite A5 in B5. rewrite A6 in B6. rewrite A9 in B9.
  inversion B1; subst t0'. inversion B2; subst p0'. inversion B3; subst tex'. inversion B4; subst pex'. inversion B5; subst d'. inversion B6; subst n'. inversion B9; subst tau'.
  cbn beta iota in A7, B7. 
  destruct (c_I0 C) as [i0|] eqn:Ei; [cbn [rbind] in Es|discriminate]. rewrite A7 in Es. cbn [rbind] in Es.
  destruct (p_val C Omega) as [om|] eqn:Eo; [cbn [rbind] in Es|discriminate]. rewrite A9, B7 in Es. cbn [rbind] in Es.
  destruct (p_val C NormBRDF) as [norm|] eqn:En; [cbn [rbind] in Es|discriminate]. destruct (p_val C Bsf) as [bsf|] eqn:Eb; [cbn [rbind] in Es|discriminate].
  exists r, (c_exprs k), t0, tex, p0, pex, d, fv, fv', n, mu, mu', mux, mux', tau, F1, F2, om, norm, bsf, i0, s.
  split; [exact Hr|]. rewrite !(obs_angle_conf w' _ o r G' Hr), !(obs_param_conf w' _ o r G' Hr), (obs_dict_conf w' _ o r G' Hr), (obs_I0_conf w' o r Hr).
  assert (M1 : mu = ncos t0) by (unfold p_mu0 in A7; rewrite A1 in A7; now inversion A7).
  assert (M2 : mu' = ncos tex) by (unfold p_muex in B7; rewrite A3 in B7; now inversion B7).
  do 10 (split; [assumption|]). split; [exact A12|]. split; [exact A13|]. split; [exact B13|].
  do 7 (split; [assumption|]). exact Ec.
Qed.
Print Assumptions C08_by_name.

(** *** C12.  Two objects with the same configuration give the same result. *)
Definition same_configuration (w1 : world) (o1 : nat) (w2 : world) (o2 : nat) : Prop :=
  exists r1 r2, obj (w_heap w1) o1 = Ok r1 /\ obj (w_heap w2) o2 = Ok r2 /\
    h_be (w_heap w1) = h_be (w_heap w2) /\ h_seng (w_heap w1) = h_seng (w_heap w2) /\
    (** R.V, R.SRF: the same functions *)
    scat_at (w_heap w1) (r_V r1) = scat_at (w_heap w2) (r_V r2) /\ scat_at (w_heap w1) (r_SRF r1) = scat_at (w_heap w2) (r_SRF r2) /\
    (** int_Q, sig0, dB, fn_input, I0 *)
    r_intQ r1 = r_intQ r2 /\ r_sig0 r1 = r_sig0 r2 /\ r_dB r1 = r_dB r2 /\ r_fn_input r1 = r_fn_input r2 /\
    r_fnevals_input r1 = None /\ r_fnevals_input r2 = None /\
    deref (w_heap w1) (r_I0 r1) = deref (w_heap w2) (r_I0 r2) /\
    (** the definitions of tau, omega, NormBRDF, bsf *)
    (forall p, cdef_of (w_heap w1) (r_def r1 p) = cdef_of (w_heap w2) (r_def r2 p)) /\
    (** mode and fixed angles, and the values of the angles *)
    r_geom r1 = r_geom r2 /\ (forall a, snd (step w1 (OReadAngle o1 a)) = snd (step w2 (OReadAngle o2 a))) /\
    (** param_dict, as a mapping *)
    (exists d1 d2, snd (step w1 (OParamDict o1)) = RetDict d1 /\ snd (step w2 (OParamDict o2)) = RetDict d2 /\ forall s, dget d1 s = dget d2 s).

Lemma same_map_perm (d d' : dict (nd xr)) : NoDup (dkeys d) -> NoDup (dkeys d') -> (forall s, dget d s = dget d' s) -> Permutation d d'.
Proof.
  intros N N' H. apply NoDup_Permutation.
  - unfold dkeys in N. eapply NoDup_map_inv, N.
  - unfold dkeys in N'. eapply NoDup_map_inv, N'.
  - assert (G : forall d : dict (nd xr), NoDup (dkeys d) -> forall k a, In (k, a) d <-> dget d k = Some a).
    { intros e Ne k a. split; [now apply dget_own|]. clear. induction e as [|[k' a'] e IH]; [discriminate|]. cbn [dget].
      destruct (String.eqb_spec k k') as [->|]; [intros E; inversion E; now left|]. right. now apply IH. }
    intros [k a]. rewrite (G d N), (G d' N'), H. tauto.
Qed.
Lemma same_setup_of w1 q1 o1 w2 q2 o2 : good w1 q1 -> good w2 q2 -> same_configuration w1 o1 w2 o2 ->
  exists r1 r2 d1 d2, obj (w_heap w1) o1 = Ok r1 /\ obj (w_heap w2) o2 = Ok r2 /\
    r_fnevals_input r1 = None /\ r_fnevals_input r2 = None /\ r_intQ r1 = r_intQ r2 /\
    same_setup (conf (w_heap w1) r1) (conf (w_heap w2) r2) d1 d2.
Proof.
  intros G1 G2 (r1 & r2 & H1 & H2 & Eb & Eg & EV & ES & Eq & Es & Ed & Ef & N1 & N2 & Ei & Edf & Egm & Ea & d1 & d2 & P1 & P2 & M).
  exists r1, r2, d1, d2. do 5 (split; [assumption|]).
  apply (obs_dict_conf w1 _ o1 r1 G1 H1) in P1. apply (obs_dict_conf w2 _ o2 r2 G2 H2) in P2.
  assert (R : forall a, p_read (conf (w_heap w2) r2) a = p_read (conf (w_heap w1) r1) a).
  { intros a. specialize (Ea a). rewrite (read_eval w1 _ G1 (OReadAngle o1 a) I), (read_eval w2 _ G2 (OReadAngle o2 a) I) in Ea.
    rewrite (eval_angle _ _ _ _ H1), (eval_angle _ _ _ _ H2) in Ea. unfold outA in Ea. destruct (p_read _ a), (p_read _ a); congruence. }
  assert (K1 : NoDup (dkeys d1)).
  { rewrite (p_params_keys _ _ P1). cbn [conf c_params]. rewrite dkeys_map. exact (proj1 (proj2 (proj1 (good_keys _ _ G1)) o1 r1 H1)). }
  assert (K2 : NoDup (dkeys d2)).
  { rewrite (p_params_keys _ _ P2). cbn [conf c_params]. rewrite dkeys_map. exact (proj1 (proj2 (proj1 (good_keys _ _ G2)) o2 r2 H2)). }
  pose proof (same_map_perm _ _ K1 K2 M) as Pm.
  constructor; try (symmetry; assumption); try assumption; try (cbn [conf c_backend c_seng c_V c_SRF c_intQ c_sig0 c_dB c_fnin c_I0 c_geom]; congruence).
  - intros p. cbn [conf c_def]. symmetry. apply Edf.
  - split; apply Permutation_NoDup, Permutation_app_head; unfold dkeys; apply Permutation_map; [exact Pm|now symmetry].
  - intros t0 tex p0 pex _ _ _ _. apply bc_shapes_set; apply incl_map; intros x; rewrite !in_app_iff; intros [X|X]; auto; right; revert X; unfold dvals;
      apply Permutation_in, Permutation_map; [exact Pm|now symmetry].
Qed.

(** calc(): histories in which R.V and R.SRF are not reassigned, no backend switch, and no name added after compilation *)
Theorem C12_calc_partial : forall w1 o1 w2 o2,
  tidy w1 (OCalc o1 nil) -> tidy w2 (OCalc o2 nil) -> same_configuration w1 o1 w2 o2 -> names_current w1 o1 -> names_current w2 o2 ->
  snd (step w1 (OCalc o1 nil)) = snd (step w2 (OCalc o2 nil)).
Proof.
  intros w1 o1 w2 o2 T1 T2 SC U1 U2. pose proof (tidy_good _ _ T1) as G1. pose proof (tidy_good _ _ T2) as G2.
  destruct (same_setup_of _ _ _ _ _ _ G1 G2 SC) as (r1 & r2 & d1 & d2 & H1 & H2 & N1 & N2 & Q & S).
  apply (up_to_date_current _ _ _ H1) in U1. apply (up_to_date_current _ _ _ H2) in U2.
  rewrite (calc_nil _ _ _ _ G1 (ex_intro _ r1 (conj H1 (conj eq_refl eq_refl)))), (calc_nil _ _ _ _ G2 (ex_intro _ r2 (conj H2 (conj eq_refl eq_refl)))).
  f_equal. destruct (good_keys _ _ G1) as [K1 B1]. destruct (good_keys _ _ G2) as [K2 B2].
  destruct (tidy_inv _ _ T1) as (F1 & _). destruct (tidy_inv _ _ T2) as (F2 & _).
  transitivity (p_calc (conf (w_heap w1) r1) (p_fnev (conf (w_heap w1) r1))).
  - destruct (r_intQ r1) eqn:Q1; [|now apply calc_no_int]. rewrite (fnev_fresh _ _ (F1 o1 r1 H1) (proj2 K1 o1 r1 H1) B1 Q1 U1). reflexivity.
  - rewrite <- (s_calc _ _ _ _ S N1 N2). destruct (r_intQ r2) eqn:Q2; [|now apply calc_no_int].
    rewrite (fnev_fresh _ _ (F2 o2 r2 H2) (proj2 K2 o2 r2 H2) B2 Q2 U2). reflexivity.
Qed.
Print Assumptions C12_calc_partial.
(** interaction() with int_Q=True *)
Theorem C12_interaction_partial : forall w1 o1 w2 o2 sg db,
  tidy w1 (OInteraction o1 nil) -> tidy w2 (OInteraction o2 nil) -> same_configuration w1 o1 w2 o2 -> obs_flags w1 o1 true sg db ->
  names_current w1 o1 -> names_current w2 o2 ->
  snd (step w1 (OInteraction o1 nil)) = snd (step w2 (OInteraction o2 nil)).
Proof.
  intros w1 o1 w2 o2 sg db T1 T2 SC (rf & Hf & Q1 & _) U1 U2. pose proof (tidy_good _ _ T1) as G1. pose proof (tidy_good _ _ T2) as G2.
  destruct (same_setup_of _ _ _ _ _ _ G1 G2 SC) as (r1 & r2 & d1 & d2 & H1 & H2 & N1 & N2 & Q & S).
  assert (rf = r1) by congruence. subst rf.
  apply (up_to_date_current _ _ _ H1) in U1. apply (up_to_date_current _ _ _ H2) in U2.
  rewrite (interaction_nil _ _ _ _ G1 (ex_intro _ r1 (conj H1 (conj eq_refl eq_refl)))), (interaction_nil _ _ _ _ G2 (ex_intro _ r2 (conj H2 (conj eq_refl eq_refl)))).
  f_equal. destruct (good_keys _ _ G1) as [K1 B1]. destruct (good_keys _ _ G2) as [K2 B2].
  destruct (tidy_inv _ _ T1) as (F1 & _). destruct (tidy_inv _ _ T2) as (F2 & _).
  rewrite (fnev_fresh _ _ (F1 o1 r1 H1) (proj2 K1 o1 r1 H1) B1 Q1 U1).
  rewrite (fnev_fresh _ _ (F2 o2 r2 H2) (proj2 K2 o2 r2 H2) B2 (eq_trans (eq_sym Q) Q1) U2).
  rewrite (s_interaction _ _ _ _ S N1 N2). destruct (p_interaction _ _) as [v|]; [cbn [rbind]|reflexivity]. symmetry. apply (s_convert _ _ _ _ S).
Qed.
Print Assumptions C12_interaction_partial.
(** surface() and volume() *)
Theorem C12_direct : forall w1 o1 w2 o2,
  good w1 (OSurface o1 nil) -> good w2 (OSurface o2 nil) -> same_configuration w1 o1 w2 o2 ->
  snd (step w1 (OSurface o1 nil)) = snd (step w2 (OSurface o2 nil)) /\ snd (step w1 (OVolume o1 nil)) = snd (step w2 (OVolume o2 nil)).
Proof.
  intros w1 o1 w2 o2 G1 G2 SC. destruct (same_setup_of _ _ _ _ _ _ G1 G2 SC) as (r1 & r2 & d1 & d2 & H1 & H2 & N1 & N2 & Q & S).
  assert (G1' : good w1 (OVolume o1 nil)) by (eapply good_other; [exact G1|intros J; apply adm_nil]).
  assert (G2' : good w2 (OVolume o2 nil)) by (eapply good_other; [exact G2|intros J; apply adm_nil]).
  rewrite (surface_nil _ _ _ _ G1 (ex_intro _ r1 (conj H1 (conj eq_refl eq_refl)))), (surface_nil _ _ _ _ G2 (ex_intro _ r2 (conj H2 (conj eq_refl eq_refl)))).
  rewrite (volume_nil _ _ _ _ G1' (ex_intro _ r1 (conj H1 (conj eq_refl eq_refl)))), (volume_nil _ _ _ _ G2' (ex_intro _ r2 (conj H2 (conj eq_refl eq_refl)))).
  rewrite (s_surface _ _ _ _ S), (s_volume _ _ _ _ S). split; f_equal.
  - destruct (p_surface _) as [v|]; [cbn [rbind]|reflexivity]. symmetry. apply (s_convert _ _ _ _ S).
  - destruct (p_volume _) as [v|]; [cbn [rbind]|reflexivity]. symmetry. apply (s_convert _ _ _ _ S).
Qed.
Print Assumptions C12_direct.
