(** Two objects set up in the same way give the same results: the methods of PureCalc.v see the
    parameter dictionary only as a mapping, on the names that occur. *)
From Coq Require Import FunctionalExtensionality Permutation.
From Verif Require Export CallEq.
Open Scope string_scope.
Open Scope nat_scope.
Open Scope list_scope.

(** the names the calculation looks up: symbols of the string definitions, of V and SRF, and of the
    fn-coefficients *)
Definition relevant (C : config) (s : string) : Prop :=
  (exists p e, c_def C p = CStr e /\ In s (syms e)) \/
  (exists sc, (c_V C = Ok sc \/ c_SRF C = Ok sc) /\ In s (syms (phase_function sc))) \/
  (exists f, p_fn C = Ok (Some f) /\ In s (all_syms f)).

Record same_setup (C C' : config) (kw kw' : dict (nd xr)) : Prop := mk_same {
  ss_be : c_backend C' = c_backend C;
  ss_seng : c_seng C' = c_seng C;
  ss_V : c_V C' = c_V C;
  ss_SRF : c_SRF C' = c_SRF C;
  ss_intQ : c_intQ C' = c_intQ C;
  ss_sig0 : c_sig0 C' = c_sig0 C;
  ss_dB : c_dB C' = c_dB C;
  ss_fnin : c_fnin C' = c_fnin C;
  ss_I0 : c_I0 C' = c_I0 C;
  ss_def : forall p, c_def C' p = c_def C p;
  ss_geom : c_geom C' = c_geom C;
  ss_read : forall a, p_read C' a = p_read C a;
  ss_kw : p_params C = Ok kw;
  ss_kw' : p_params C' = Ok kw';
  ss_nd : NoDup (angle_names ++ dkeys kw) <-> NoDup (angle_names ++ dkeys kw');
  ss_get : forall s, relevant C s -> dget kw s = dget kw' s;
  ss_shp : forall t0 tex p0 pex, p_read C T0 = Ok t0 -> p_read C TEx = Ok tex -> p_read C P0 = Ok p0 -> p_read C PEx = Ok pex ->
    bc_shapes (map shp ([t0; tex; p0; pex] ++ dvals kw)) = bc_shapes (map shp ([t0; tex; p0; pex] ++ dvals kw'))
}.

Lemma p_params_get C kw s : p_params C = Ok kw -> dget (c_params C) s = match dget kw s with Some a => Some (Ok a) | None => None end.
Proof.
  unfold p_params. intros H. apply rmap_Forall2 in H. induction H as [|[k x] [k' y] l l' E _ IH]; [reflexivity|].
  cbn [fst snd] in E. destruct x as [a|]; [|discriminate]. cbn [rbind] in E. inversion E; subst. cbn [dget]. destruct (String.eqb s k'); [reflexivity|exact IH].
Qed.
Lemma perm_angles : Permutation fn_angle_names angle_names.
Proof. unfold fn_angle_names, angle_names. apply perm_skip. apply perm_swap. Qed.
Lemma NoDup_angles l : NoDup (fn_angle_names ++ l) <-> NoDup (angle_names ++ l).
Proof.
  split; apply Permutation_NoDup; apply Permutation_app_tail; [|symmetry]; apply perm_angles.
Qed.
Lemma lambdify_dup be seng vars es : ~ NoDup vars ->
  lambdify be seng vars es = Err (match be with Sympy => SyntaxError | Symengine => if seng then Unmodelled else ImportError end).
Proof.
  intros H. unfold lambdify. destruct (no_dup_b vars) eqn:E; [apply no_dup_b_NoDup in E; contradiction|]. destruct be; [reflexivity|]. destruct seng; reflexivity.
Qed.

Section Same.
  Context (C C' : config) (kw kw' : dict (nd xr)).
  Hypothesis H : same_setup C C' kw kw'.

  Lemma s_mu0 : p_mu0 C' = p_mu0 C. Proof. unfold p_mu0. now rewrite (ss_read _ _ _ _ H). Qed.
  Lemma s_muex : p_muex C' = p_muex C. Proof. unfold p_muex. now rewrite (ss_read _ _ _ _ H). Qed.
  Lemma s_symbs p : p_symbs C' p = p_symbs C p. Proof. unfold p_symbs. now rewrite (ss_def _ _ _ _ H). Qed.
  Lemma s_get s : relevant C s -> dget (c_params C') s = dget (c_params C) s.
  Proof. intros R. rewrite (p_params_get _ _ _ (ss_kw _ _ _ _ H)), (p_params_get _ _ _ (ss_kw' _ _ _ _ H)), (ss_get _ _ _ _ H s R). reflexivity. Qed.
  Lemma get_mem {B} (d : dict B) s : mem s (dkeys d) = match dget d s with Some _ => true | None => false end.
  Proof.
    destruct (dget d s) as [b|] eqn:E.
    - apply mem_In. destruct (in_dec string_dec s (dkeys d)) as [|Nn]; [assumption|]. apply dget_None_notin in Nn. congruence.
    - apply mem_not_In. now apply dget_None_notin.
  Qed.
  Lemma s_mem s : relevant C s -> mem s (dkeys (c_params C')) = mem s (dkeys (c_params C)).
  Proof. intros R. now rewrite !get_mem, s_get. Qed.
  Lemma symbs_relevant p s : In s (p_symbs C p) -> relevant C s.
  Proof.
    unfold p_symbs. destruct (c_def C p) as [e|e|v b] eqn:E; try (intros []). intros Hs. left. exists p, e. split; [assumption|].
    now apply In_dedup.
  Qed.
  Lemma s_call p e : p_call C' p e = p_call C p e.
  Proof.
    unfold p_call. rewrite s_symbs, (ss_be _ _ _ _ H), (ss_seng _ _ _ _ H).
    destruct (lambdify _ _ _ _) as [f|]; [|reflexivity]. cbn [rbind].
    assert (L : forall l, (forall s, In s l -> relevant C s) -> rmap (p_lookup (c_params C')) l = rmap (p_lookup (c_params C)) l /\
      filter (fun k => negb (mem k (dkeys (c_params C')))) l = filter (fun k => negb (mem k (dkeys (c_params C)))) l).
    { induction l as [|s l IH]; intros R; [auto|]. destruct IH as [A B]; [intros; apply R; now right|].
      assert (Rs := R s (or_introl eq_refl)). split.
      - cbn [rmap]. unfold p_lookup at 1 3. rewrite s_get by assumption. now rewrite A.
      - cbn [filter]. rewrite s_mem by assumption. now rewrite B. }
    destruct (L (p_symbs C p) (symbs_relevant p)) as [-> ->]. reflexivity.
  Qed.
  Lemma s_eval p : p_eval C' p = p_eval C p.
  Proof. unfold p_eval. rewrite (ss_def _ _ _ _ H). destruct (c_def C p); auto using s_call. Qed.
  Lemma s_val p : p_val C' p = p_val C p.
  Proof. unfold p_val. now rewrite s_eval. Qed.
  Lemma s_scat x : p_scat C' x = p_scat C x.
  Proof.
    unfold p_scat. rewrite !(ss_read _ _ _ _ H). 
    destruct (p_read C T0) as [t0|] eqn:E1; [cbn [rbind]|reflexivity]. destruct (p_read C TEx) as [tex|] eqn:E2; [cbn [rbind]|reflexivity].
    destruct (p_read C P0) as [p0|] eqn:E3; [cbn [rbind]|reflexivity]. destruct (p_read C PEx) as [pex|] eqn:E4; [cbn [rbind]|reflexivity].
    rewrite (ss_kw _ _ _ _ H), (ss_kw' _ _ _ _ H), (ss_be _ _ _ _ H), (ss_seng _ _ _ _ H), (ss_V _ _ _ _ H), (ss_SRF _ _ _ _ H). cbn [rbind].
    destruct (match x with WV => c_V C | WSRF => c_SRF C end) as [sc|] eqn:Es; [cbn [rbind]|reflexivity].
    destruct (no_dup_b (angle_names ++ dkeys kw)) eqn:Nd.
    - apply no_dup_b_NoDup in Nd. pose proof (proj1 (ss_nd _ _ _ _ H) Nd) as Nd'.
      assert (Sm : forall s, In s (all_syms [phase_function sc]) -> In s angle_names \/ dget kw s = dget kw' s).
      { intros s Hs. right. apply (ss_get _ _ _ _ H). right; left. exists sc. split; [destruct x; auto|].
        unfold all_syms in Hs. cbn [flat_map] in Hs. now rewrite app_nil_r in Hs. }
      pose proof (lambdify_same (c_backend C) angle_names [phase_function sc] kw kw' Nd Nd' Sm (c_seng C)) as L.
      destruct (lambdify (c_backend C) (c_seng C) (angle_names ++ dkeys kw) [phase_function sc]) as [k|e].
      + destruct L as [-> ->]. cbn [rbind]. unfold call1.
        rewrite (call_same (c_backend C) angle_names [phase_function sc] kw kw'); [reflexivity|discriminate|assumption|assumption|assumption|reflexivity|].
        exact (ss_shp _ _ _ _ H _ _ _ _ E1 E2 E3 E4).
      + now rewrite L.
    - assert (Nd0 : ~ NoDup (angle_names ++ dkeys kw)) by (intros X; apply no_dup_b_NoDup in X; congruence).
      assert (Nd1 : ~ NoDup (angle_names ++ dkeys kw')) by (intros X; now apply Nd0, (ss_nd _ _ _ _ H)).
      rewrite !lambdify_dup by assumption. reflexivity.
  Qed.
  Lemma s_surface : p_surface C' = p_surface C.
  Proof. unfold p_surface. now rewrite (ss_I0 _ _ _ _ H), s_mu0, s_muex, s_scat, !s_val. Qed.
  Lemma s_volume : p_volume C' = p_volume C.
  Proof. unfold p_volume. now rewrite (ss_I0 _ _ _ _ H), s_mu0, s_muex, s_scat, !s_val. Qed.
  Lemma s_nmax : p_nmax C' = p_nmax C.
  Proof. unfold p_nmax. now rewrite (ss_V _ _ _ _ H), (ss_SRF _ _ _ _ H). Qed.
  Lemma s_fn : p_fn C' = p_fn C.
  Proof. unfold p_fn. now rewrite (ss_fnin _ _ _ _ H), (ss_intQ _ _ _ _ H), (ss_V _ _ _ _ H), (ss_SRF _ _ _ _ H), (ss_geom _ _ _ _ H), (ss_be _ _ _ _ H), (ss_seng _ _ _ _ H). Qed.
  Hypothesis F : c_fnevin C = None.
  Hypothesis F' : c_fnevin C' = None.
  Lemma s_Fint first : p_Fint C' (p_fnev C') first = p_Fint C (p_fnev C) first.
  Proof.
    unfold p_Fint, p_fnev. rewrite F, F', !(ss_read _ _ _ _ H).
    destruct (p_read C T0) as [t0|] eqn:E1; [cbn [rbind]|reflexivity]. destruct (p_read C P0) as [p0|] eqn:E3; [cbn [rbind]|reflexivity].
    destruct (p_read C TEx) as [tex|] eqn:E2; [cbn [rbind]|reflexivity]. destruct (p_read C PEx) as [pex|] eqn:E4; [cbn [rbind]|reflexivity].
    pose proof (ss_shp _ _ _ _ H _ _ _ _ E1 E2 E3 E4) as Sh.
    rewrite (ss_kw _ _ _ _ H), (ss_kw' _ _ _ _ H). cbn [rbind].
    set (four := if first then [t0; p0; tex; pex] else [tex; pex; t0; p0]).
    assert (Sh4 : bc_shapes (map shp (four ++ dvals kw)) = bc_shapes (map shp (four ++ dvals kw'))).
    { assert (P4 : forall l, bc_shapes (map shp (four ++ l)) = bc_shapes (map shp ([t0; tex; p0; pex] ++ l))).
      { intros l. apply bc_shapes_set; apply incl_map; unfold four; destruct first; intros x; rewrite !in_app_iff; simpl; tauto. }
      now rewrite !P4. }
    unfold broadcast_arrays. rewrite <- Sh4. destruct (bc_shapes (map shp (four ++ dvals kw))) as [sh|]; [cbn [rbind]|reflexivity].
    rewrite (ss_intQ _ _ _ _ H). destruct (c_intQ C) eqn:Q; [|reflexivity].
    rewrite s_fn. unfold p_comp. destruct (p_fn C) as [[es|]|] eqn:Ef; [cbn [rbind]|reflexivity|reflexivity].
    rewrite (ss_be _ _ _ _ H), (ss_seng _ _ _ _ H).
    rewrite <- (p_params_keys _ _ (ss_kw _ _ _ _ H)), <- (p_params_keys _ _ (ss_kw' _ _ _ _ H)).
    destruct (no_dup_b (angle_names ++ dkeys kw)) eqn:Nd.
    - apply no_dup_b_NoDup in Nd. pose proof (proj1 (ss_nd _ _ _ _ H) Nd) as Nd'. apply NoDup_angles in Nd, Nd'.
      assert (Sm : forall s, In s (all_syms es) -> In s fn_angle_names \/ dget kw s = dget kw' s).
      { intros s Hs. right. apply (ss_get _ _ _ _ H). right; right. eauto. }
      pose proof (lambdify_same (c_backend C) fn_angle_names es kw kw' Nd Nd' Sm (c_seng C)) as L.
      destruct (lambdify (c_backend C) (c_seng C) (fn_angle_names ++ dkeys kw) es) as [k|e].
      + destruct L as [-> ->]. cbn [rbind].
        rewrite <- (call_same_pos (c_backend C) fn_angle_names es kw kw'); [|discriminate|assumption|assumption|assumption|unfold four; destruct first; reflexivity].
        destruct (call _ _ _) as [fns|]; [cbn [rbind]|reflexivity]. rewrite s_nmax, s_mu0, s_muex, !s_val. reflexivity.
      + now rewrite L.
    - assert (Nd0 : ~ NoDup (fn_angle_names ++ dkeys kw)) by (rewrite NoDup_angles; intros X; apply no_dup_b_NoDup in X; congruence).
      assert (Nd1 : ~ NoDup (fn_angle_names ++ dkeys kw')) by (intros X; apply Nd0, NoDup_angles, (ss_nd _ _ _ _ H); now apply NoDup_angles).
      rewrite !lambdify_dup by assumption. reflexivity.
  Qed.
  Lemma s_interaction : p_interaction C' (p_fnev C') = p_interaction C (p_fnev C).
  Proof. unfold p_interaction. now rewrite !s_Fint, (ss_I0 _ _ _ _ H), s_mu0, s_muex, !s_val. Qed.
  Lemma s_convert v : p_convert C' v = p_convert C v.
  Proof. unfold p_convert. now rewrite (ss_sig0 _ _ _ _ H), (ss_dB _ _ _ _ H), s_mu0, (ss_I0 _ _ _ _ H). Qed.
  Lemma s_parts : p_parts C' (p_fnev C') = p_parts C (p_fnev C).
  Proof. unfold p_parts. now rewrite s_eval, s_surface, s_volume, s_interaction, s_val, (ss_intQ _ _ _ _ H). Qed.
  Lemma s_body : p_calc_body C' (p_fnev C') = p_calc_body C (p_fnev C).
  Proof.
    unfold p_calc_body. rewrite s_parts. destruct (p_parts C (p_fnev C)) as [[[a b] c]|]; [cbn [rbind]|reflexivity].
    rewrite (ss_intQ _ _ _ _ H). destruct (k_rows _ _ _) as [rows|]; [cbn [rbind]|reflexivity]. apply s_convert.
  Qed.
  Lemma s_missing : p_missing C' = p_missing C.
  Proof.
    unfold p_missing. rewrite (ss_V _ _ _ _ H), (ss_SRF _ _ _ _ H).
    destruct (c_V C) as [v|] eqn:Ev; [cbn [rbind]|reflexivity]. destruct (c_SRF C) as [s|] eqn:Es; [cbn [rbind]|reflexivity]. f_equal.
    unfold p_all_symbs. rewrite !s_symbs. unfold dedup_diff. apply filter_ext_in. intros x Hx. apply (proj1 (In_dedup _ _)) in Hx. f_equal.
    assert (R : relevant C x).
    { repeat rewrite in_app_iff in Hx. destruct Hx as [Hx|[Hx|Hx]].
      - destruct Hx as [Hx|[Hx|[Hx|Hx]]]; eapply symbs_relevant; eassumption.
      - right; left. exists v. split; [now left|]. now apply In_dedup.
      - right; left. exists s. split; [now right|]. now apply In_dedup. }
    unfold mem. rewrite !existsb_app. f_equal. exact (s_mem x R).
  Qed.
  Theorem s_calc : p_calc C' (p_fnev C') = p_calc C (p_fnev C).
  Proof.
    unfold p_calc, p_handle. rewrite s_body. destruct (p_calc_body C (p_fnev C)) as [a|e]; [reflexivity|]. now rewrite s_missing.
  Qed.
End Same.
