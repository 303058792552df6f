(** Values of V.calc / SRF.calc, element by element. *)
From Verif Require Export Formula ExprFacts.
Open Scope nat_scope.
Open Scope string_scope.
Open Scope list_scope.

(** what the names of a scattering function stand for at one position *)
Definition env_at (t0 tex p0 pex : nd xr) (d : dict (nd xr)) (i : list nat) (s : string) : xr :=
  if String.eqb s "theta_0" then bget t0 i else if String.eqb s "theta_ex" then bget tex i
  else if String.eqb s "phi_0" then bget p0 i else if String.eqb s "phi_ex" then bget pex i
  else match dget d s with Some a => bget a i | None => NaN end.

Lemma skipn_angles ks : skipn 4 (angle_names ++ ks) = ks. Proof. reflexivity. Qed.
Lemma env_of_angles t0 tex p0 pex d vals i s :
  bound (angle_names ++ dkeys d) [t0; tex; p0; pex] d vals ->
  In s (angle_names ++ dkeys d) -> 
  env_of (angle_names ++ dkeys d) vals i s = env_at t0 tex p0 pex d i s.
Proof.
  intros (vs & -> & _ & F) Hs. cbn [length] in F. rewrite skipn_angles in F. unfold env_at. cbn [angle_names app env_of].
  destruct (String.eqb s "theta_0") eqn:E1; [reflexivity|]. destruct (String.eqb s "theta_ex") eqn:E2; [reflexivity|].
  destruct (String.eqb s "phi_0") eqn:E3; [reflexivity|]. destruct (String.eqb s "phi_ex") eqn:E4; [reflexivity|].
  apply in_app_or in Hs. destruct Hs as [Hs|Hs].
  - exfalso. apply String.eqb_neq in E1, E2, E3, E4. unfold angle_names in Hs. simpl in Hs. destruct Hs as [<-|[<-|[<-|[<-|[]]]]]; congruence.
  - destruct (env_of_kw _ _ _ s i F Hs) as (a & -> & ->). reflexivity.
Qed.
(** the symbols of a successful call are bound *)
Lemma call_syms c pos kw l : call c pos kw = Ok l -> (c_be c = Symengine -> incl (all_syms (c_exprs c)) (c_vars c)) ->
  incl (all_syms (c_exprs c)) (c_vars c).
Proof.
  intros H Hs. unfold call in H. destruct (c_be c); [|auto]. destruct (bind_sympy _ _ _); [|discriminate]. cbn [rbind] in H.
  destruct (subset_b _ _) eqn:E; [|discriminate]. now apply subset_b_incl.
Qed.
Lemma p_scat_el C x v : p_scat C x = Ok v ->
  exists t0 tex p0 pex d s, p_read C T0 = Ok t0 /\ p_read C TEx = Ok tex /\ p_read C P0 = Ok p0 /\ p_read C PEx = Ok pex /\
    p_params C = Ok d /\ match x with WV => c_V C | WSRF => c_SRF C end = Ok s /\
    incl (syms (phase_function s)) (angle_names ++ dkeys d) /\
    forall i, bget v i = evalX (env_at t0 tex p0 pex d i) (phase_function s).
Proof.
  unfold p_scat. intros H.
  destruct (p_read C T0) as [t0|]; [cbn [rbind] in H|discriminate]. destruct (p_read C TEx) as [tex|]; [cbn [rbind] in H|discriminate].
  destruct (p_read C P0) as [p0|]; [cbn [rbind] in H|discriminate]. destruct (p_read C PEx) as [pex|]; [cbn [rbind] in H|discriminate].
  destruct (p_params C) as [d|]; [cbn [rbind] in H|discriminate].
  destruct (match x with WV => c_V C | WSRF => c_SRF C end) as [s|]; [cbn [rbind] in H|discriminate].
  destruct (lambdify _ _ _ _) as [f|] eqn:El; [cbn [rbind] in H|discriminate].
  exists t0, tex, p0, pex, d, s. repeat (split; [reflexivity|]).
  destruct (lambdify_Ok _ _ _ _ _ El) as (-> & _ & Hse).
  assert (Inc : incl (syms (phase_function s)) (angle_names ++ dkeys d)).
  { pose proof H as H'. unfold call1 in H'. destruct (call _ _ _) as [l|] eqn:Ec; [|discriminate].
    pose proof (call_syms _ _ _ _ Ec) as X. cbn [c_be c_exprs c_vars] in X. unfold all_syms in X. cbn [flat_map] in X. rewrite app_nil_r in X.
    apply X. intros B. destruct (Hse B) as [_ B']. apply subset_b_incl in B'. unfold all_syms in B'. cbn [flat_map] in B'. now rewrite app_nil_r in B'. }
  split; [exact Inc|].
  destruct (call1_spec (mk_comp (c_backend C) (angle_names ++ dkeys d) [phase_function s]) _ _ (phase_function s) _ eq_refl H) as (vals & B & L & F). cbn [c_vars] in *.
  intros i. rewrite F. apply evalX_ext. intros y Hy. apply env_of_angles; [assumption|]. now apply Inc.
Qed.
