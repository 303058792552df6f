(** Scattering functions that differ in ncoefs only. *)
From Verif Require Export Properties10.
Open Scope string_scope.
Open Scope nat_scope.
Open Scope list_scope.

(** ** Specification vocabulary *)
(** the function with every ncoefs removed (not given at construction) *)
Fixpoint forget (s : scat) : scat :=
  match s with
  | VHG t _ a => VHG t None a
  | VHGRay t _ a => VHGRay t None a
  | SCos i _ a => SCos i None a
  | SHG t _ a => SHG t None a
  | SHGn t _ a => SHGn t None a
  | LinComb ch a => LinComb (map (fun c => (fst c, forget (snd c))) ch) a
  | _ => s
  end.
(** the function with every ncoefs that was not given replaced by [n] *)
Fixpoint with_ncoefs (n : nat) (s : scat) : scat :=
  match s with
  | VHG t None a => VHG t (Some n) a
  | VHGRay t None a => VHGRay t (Some n) a
  | SCos i None a => SCos i (Some n) a
  | SHG t None a => SHG t (Some n) a
  | SHGn t None a => SHGn t (Some n) a
  | LinComb ch a => LinComb (map (fun c => (fst c, with_ncoefs n (snd c))) ch) a
  | _ => s
  end.
(** some ncoefs was not given *)
Fixpoint lacks_ncoefs (s : scat) : bool :=
  match s with
  | VHG _ None _ | VHGRay _ None _ | SCos _ None _ | SHG _ None _ | SHGn _ None _ => true
  | LinComb ch _ => existsb (fun c => lacks_ncoefs (snd c)) ch
  | _ => false
  end.

(** ** Induction over nested linear combinations *)
Section ScatInd.
  Variable P : scat -> Prop.
  Hypothesis Hbase : forall s, match s with LinComb _ _ => False | _ => True end -> P s.
  Hypothesis Hlin : forall ch a, Forall (fun c => P (snd c)) ch -> P (LinComb ch a).
  Fixpoint scat_nested (s : scat) : P s :=
    match s return P s with
    | LinComb ch a => Hlin ch a ((fix go (l : list (expr * scat)) : Forall (fun c => P (snd c)) l :=
        match l with [] => Forall_nil _ | c :: l' => Forall_cons _ (scat_nested (snd c)) (go l') end) ch)
    | s => Hbase s I
    end.
End ScatInd.

Lemma scat_a_forget s : scat_a (forget s) = scat_a s. Proof. now destruct s. Qed.
Lemma scat_a_with n s : scat_a (with_ncoefs n s) = scat_a s.
Proof. destruct s as [a|a|t [nc|] a|t [nc|] a|a|i [nc|] a|t [nc|] a|t [nc|] a|ch a]; reflexivity. Qed.
Lemma fold_phase f ch : (forall x : expr, Forall (fun c => phase_function (f (snd c)) = phase_function (snd c)) ch ->
  fold_left (fun acc cw => eadd acc (emul (fst cw) (phase_function (snd cw)))) (map (fun c => (fst c, f (snd c))) ch) x =
  fold_left (fun acc cw => eadd acc (emul (fst cw) (phase_function (snd cw)))) ch x).
Proof.
  induction ch as [|c ch IH]; intros x F; [reflexivity|]. inversion F; subst. cbn [map fold_left fst snd]. rewrite H1. now apply IH.
Qed.
Lemma phase_forget s : phase_function (forget s) = phase_function s.
Proof.
  induction s using scat_nested; [destruct s; try contradiction; cbn [forget phase_function]; unfold scattering_angle_symbolic; cbn [scat_a]; reflexivity|].
  cbn [forget phase_function]. now apply fold_phase.
Qed.
Lemma phase_with n s : phase_function (with_ncoefs n s) = phase_function s.
Proof.
  induction s using scat_nested; [destruct s as [a|a|t [nc|] a|t [nc|] a|a|i [nc|] a|t [nc|] a|t [nc|] a|ch a]; try contradiction;
    cbn [with_ncoefs phase_function]; unfold scattering_angle_symbolic; cbn [scat_a]; reflexivity|].
  cbn [with_ncoefs phase_function]. now apply fold_phase.
Qed.
Lemma legco_with n k s : legendre_coefficient k (with_ncoefs n s) = legendre_coefficient k s.
Proof.
  destruct s as [a|a|t [nc|] a|t [nc|] a|a|i [nc|] a|t [nc|] a|t [nc|] a|ch a]; cbn [with_ncoefs legendre_coefficient]; reflexivity.
Qed.
Lemma with_full n s : lacks_ncoefs s = false -> with_ncoefs n s = s.
Proof.
  induction s using scat_nested; [destruct s as [a|a|t [nc|] a|t [nc|] a|a|i [nc|] a|t [nc|] a|t [nc|] a|ch a]; try reflexivity; try discriminate; contradiction|].
  cbn [lacks_ncoefs with_ncoefs]. intros E. f_equal. induction ch as [|[c s] ch IH]; [reflexivity|]. cbn [existsb snd] in E.
  apply orb_false_iff in E. inversion H; subst. cbn [map fst snd] in *. rewrite H2 by tauto. f_equal. apply IH; tauto.
Qed.
Lemma rmax_with n (ch : list (expr * scat)) k :
  Forall (fun c => forall k, ncoefs (with_ncoefs n (snd c)) = Ok k -> lacks_ncoefs (snd c) = true -> ncoefs (snd c) = Err AttributeError) ch ->
  rmax (map (fun c => ncoefs (with_ncoefs n (snd c))) ch) = Ok k -> existsb (fun c => lacks_ncoefs (snd c)) ch = true ->
  rmax (map (fun c => ncoefs (snd c)) ch) = Err AttributeError.
Proof.
  revert k. induction ch as [|c ch IH]; intros k F; [discriminate|]. inversion F; subst. destruct ch as [|c' ch].
  - cbn [map rmax existsb]. rewrite orb_false_r. eauto.
  - cbn [map] in IH |- *. cbn [rmax existsb]. intros R X. destruct (ncoefs (with_ncoefs n (snd c))) as [x|] eqn:Ex; [cbn [rbind] in R|discriminate].
    destruct (rmax (ncoefs (with_ncoefs n (snd c')) :: map (fun c0 => ncoefs (with_ncoefs n (snd c0))) ch)) as [y|] eqn:Ey; [|cbn [rmax] in Ey; rewrite Ey in R; discriminate].
    destruct (lacks_ncoefs (snd c)) eqn:L; [now rewrite (H1 x eq_refl eq_refl)|].
    rewrite (with_full n _ L) in Ex. rewrite Ex. cbn [rbind]. specialize (IH y H2 eq_refl X). cbn [rmax] in IH. now rewrite IH.
Qed.
Lemma ncoefs_lacks n s : forall k, ncoefs (with_ncoefs n s) = Ok k -> lacks_ncoefs s = true -> ncoefs s = Err AttributeError.
Proof.
  induction s using scat_nested.
  - intros k. destruct s as [a|a|t [nc|] a|t [nc|] a|a|i [nc|] a|t [nc|] a|t [nc|] a|ch a]; try discriminate; try reflexivity; contradiction.
  - intros k. cbn [with_ncoefs ncoefs lacks_ncoefs]. rewrite map_map. cbn [snd]. now apply rmax_with.
Qed.

(** the groups of a linear combination *)
Definition fillc n (c : expr * scat) : expr * scat := (fst c, with_ncoefs n (snd c)).
Lemma group_insert_with n a c gs :
  group_insert a (fillc n c) (map (fun g => (fst g, map (fillc n) (snd g))) gs) = map (fun g => (fst g, map (fillc n) (snd g))) (group_insert a c gs).
Proof.
  induction gs as [|[b cs] gs IH]; [reflexivity|]. cbn [map group_insert fst snd]. destruct (atrip_eqb b a); [|now rewrite IH].
  cbn [map fst snd]. now rewrite map_app.
Qed.
Lemma a_groups_with n ch : a_groups (map (fillc n) ch) = map (fun g => (fst g, map (fillc n) (snd g))) (a_groups ch).
Proof.
  unfold a_groups. change (@nil (atrip * list (expr * scat))) with (map (fun g : atrip * list (expr * scat) => (fst g, map (fillc n) (snd g))) []) at 1.
  generalize (@nil (atrip * list (expr * scat))). induction ch as [|c ch IH]; intros gs; [reflexivity|]. cbn [map fold_left].
  unfold fillc at 2. cbn [snd]. rewrite scat_a_with. rewrite group_insert_with. apply IH.
Qed.
Lemma group_lacks ch : existsb (fun g => existsb (fun c : expr * scat => lacks_ncoefs (snd c)) (snd g)) (a_groups ch) =
  existsb (fun c => lacks_ncoefs (snd c)) ch.
Proof.
  assert (I1 : forall a c gs, existsb (fun g : atrip * list (expr * scat) => existsb (fun c => lacks_ncoefs (snd c)) (snd g)) (group_insert a c gs) =
     existsb (fun g => existsb (fun c => lacks_ncoefs (snd c)) (snd g)) gs || lacks_ncoefs (snd c)).
  { intros a c gs. induction gs as [|[b cs] gs IH]; [cbn; now destruct (lacks_ncoefs (snd c))|]. cbn [group_insert]. destruct (atrip_eqb b a); cbn [existsb snd].
    - rewrite existsb_app. cbn [existsb]. destruct (existsb _ cs), (lacks_ncoefs (snd c)), (existsb _ gs); reflexivity.
    - rewrite IH. now rewrite orb_assoc. }
  unfold a_groups. assert (G : forall gs, existsb (fun g => existsb (fun c : expr * scat => lacks_ncoefs (snd c)) (snd g)) (fold_left (fun gs c => group_insert (scat_a (snd c)) c gs) ch gs) =
    existsb (fun g => existsb (fun c : expr * scat => lacks_ncoefs (snd c)) (snd g)) gs || existsb (fun c => lacks_ncoefs (snd c)) ch).
  { induction ch as [|c ch IH]; intros gs; [cbn; now rewrite orb_false_r|]. cbn [fold_left]. rewrite IH, I1. cbn [existsb]. now rewrite orb_assoc. }
  now rewrite G.
Qed.
Lemma group_coef_with n k cs : group_coef k (map (fillc n) cs) = group_coef k cs.
Proof.
  unfold group_coef. generalize (Ok (ENum 0) : res expr). induction cs as [|c cs IH]; intros x; [reflexivity|]. cbn [map fold_left].
  unfold fillc at 2 3. cbn [fst snd]. rewrite legco_with. apply IH.
Qed.
Lemma leg_sum_ext t0 tex p0 pex f g a nc : (forall k, f k = g k) -> leg_sum t0 tex p0 pex f a nc = leg_sum t0 tex p0 pex g a nc.
Proof.
  intros H. unfold leg_sum. generalize (Ok (ENum 0) : res expr). induction (seq 0 nc) as [|k l IH]; intros x; [reflexivity|]. cbn [fold_left].
  rewrite H. apply IH.
Qed.
Definition group_step (t0 tex p0 pex : expr) (acc : res expr) (g : atrip * list (expr * scat)) : res expr :=
  let* x := acc in let* nc := rmax (map (fun c => ncoefs (snd c)) (snd g)) in
  let* _ := group_coef 0 (snd g) in let* e := leg_sum t0 tex p0 pex (fun k => group_coef k (snd g)) (fst g) nc in Ok (eadd x e).
Lemma expansion_lin t0 tex p0 pex ch a : legendre_expansion t0 tex p0 pex (LinComb ch a) =
  match a_groups ch with [] => Err AttributeError | gs => fold_left (group_step t0 tex p0 pex) gs (Ok (ENum 0)) end.
Proof. reflexivity. Qed.
Lemma fold_err t0 tex p0 pex gs e : fold_left (group_step t0 tex p0 pex) gs (Err e) = Err e.
Proof. induction gs as [|g gs IH]; [reflexivity|exact IH]. Qed.
Lemma fold_lacks n t0 tex p0 pex gs : forall x e,
  fold_left (group_step t0 tex p0 pex) (map (fun g => (fst g, map (fillc n) (snd g))) gs) (Ok x) = Ok e ->
  existsb (fun g => existsb (fun c : expr * scat => lacks_ncoefs (snd c)) (snd g)) gs = true ->
  fold_left (group_step t0 tex p0 pex) gs (Ok x) = Err AttributeError.
Proof.
  induction gs as [|[a cs] gs IH]; intros x e; [discriminate|].
  cbn [map fold_left existsb fst snd]. intros E X.
  destruct (existsb (fun c : expr * scat => lacks_ncoefs (snd c)) cs) eqn:L.
  - assert (Y : group_step t0 tex p0 pex (Ok x) (a, cs) = Err AttributeError); [|rewrite Y; apply fold_err].
    unfold group_step in E |- *. cbn [rbind fst snd] in E |- *. rewrite map_map in E. cbn [fillc snd] in E.
    destruct (rmax (map (fun c : expr * scat => ncoefs (with_ncoefs n (snd c))) cs)) as [nc|er] eqn:Er.
    + rewrite (rmax_with n _ nc); [reflexivity| |assumption|assumption]. apply Forall_forall. intros c _. apply ncoefs_lacks.
    + cbn [rbind] in E. fold (group_step t0 tex p0 pex) in E. rewrite fold_err in E. discriminate.
  - assert (Eg : map (fillc n) cs = cs).
    { clear - L. induction cs as [|c l IH]; [reflexivity|]. cbn [existsb] in L. apply orb_false_iff in L. cbn [map]. rewrite IH by tauto. f_equal.
      unfold fillc. rewrite with_full by tauto. now destruct c. }
    rewrite Eg in E. destruct (group_step t0 tex p0 pex (Ok x) (a, cs)) as [y|er]; [|rewrite fold_err in E; discriminate].
    now apply (IH y e).
Qed.
Lemma expansion_lacks n t0 tex p0 pex s e : legendre_expansion t0 tex p0 pex (with_ncoefs n s) = Ok e -> lacks_ncoefs s = true ->
  legendre_expansion t0 tex p0 pex s = Err AttributeError.
Proof.
  destruct s as [a|a|t [nc|] a|t [nc|] a|a|i [nc|] a|t [nc|] a|t [nc|] a|ch a]; try discriminate; try reflexivity.
  cbn [with_ncoefs lacks_ncoefs]. change (map (fun c : expr * scat => (fst c, with_ncoefs n (snd c))) ch) with (map (fillc n) ch).
  rewrite !expansion_lin, a_groups_with, <- group_lacks. destruct (a_groups ch) as [|g0 gs0]; [discriminate|]. exact (fold_lacks n t0 tex p0 pex (g0 :: gs0) (ENum 0) e).
Qed.
Lemma calc_fn_lacks n V SRF g f : calc_fn (with_ncoefs n V) (with_ncoefs n SRF) g = Ok f -> lacks_ncoefs V = true \/ lacks_ncoefs SRF = true ->
  calc_fn V SRF g = Err AttributeError.
Proof.
  unfold calc_fn, calc_interaction_expansion. intros E L.
  destruct (legendre_expansion _ _ _ _ (with_ncoefs n SRF)) as [b|] eqn:Eb; [cbn [rbind] in E|discriminate].
  destruct (legendre_expansion _ _ _ _ (with_ncoefs n V)) as [v|] eqn:Ev; [cbn [rbind] in E|discriminate].
  destruct (lacks_ncoefs SRF) eqn:LS; [now rewrite (expansion_lacks _ _ _ _ _ _ _ Eb LS)|].
  rewrite (with_full n _ LS) in Eb. rewrite Eb. cbn [rbind]. destruct L as [L|]; [|discriminate]. now rewrite (expansion_lacks _ _ _ _ _ _ _ Ev L).
Qed.

(** ** Configurations *)
Definition res_map {A B} (f : A -> B) (x : res A) : res B := let* a := x in Ok (f a).
Definition mapC (f : scat -> scat) (C : config) : config :=
  mk_conf (c_backend C) (c_seng C) (res_map f (c_V C)) (res_map f (c_SRF C)) (c_intQ C) (c_sig0 C) (c_dB C) (c_fnin C) (c_fnevin C) (c_I0 C)
    (c_def C) (c_params C) (c_mono C) (c_ang C) (c_geom C).
Section Map.
  Context (f : scat -> scat) (Hf : forall s, phase_function (f s) = phase_function s) (C : config).
  Notation D := (mapC f C).
  Lemma mc_read a : p_read D a = p_read C a. Proof. destruct a; reflexivity. Qed.
  Lemma mc_mu0 : p_mu0 D = p_mu0 C. Proof. reflexivity. Qed.
  Lemma mc_muex : p_muex D = p_muex C. Proof. reflexivity. Qed.
  Lemma mc_eval p : p_eval D p = p_eval C p. Proof. reflexivity. Qed.
  Lemma mc_val p : p_val D p = p_val C p. Proof. reflexivity. Qed.
  Lemma mc_scat x : p_scat D x = p_scat C x.
  Proof.
    unfold p_scat. change (p_params D) with (p_params C). rewrite !mc_read. destruct (p_read C T0); [cbn [rbind]|reflexivity]. destruct (p_read C TEx); [cbn [rbind]|reflexivity].
    destruct (p_read C P0); [cbn [rbind]|reflexivity]. destruct (p_read C PEx); [cbn [rbind]|reflexivity]. destruct (p_params C); [cbn [rbind]|reflexivity].
    assert (E : match x with WV => c_V D | WSRF => c_SRF D end = res_map f (match x with WV => c_V C | WSRF => c_SRF C end)) by now destruct x.
    rewrite E. destruct (match x with WV => c_V C | WSRF => c_SRF C end); [|reflexivity]. cbn [res_map rbind]. rewrite Hf. reflexivity.
  Qed.
  Lemma mc_surface : p_surface D = p_surface C.
  Proof. unfold p_surface. now rewrite mc_scat. Qed.
  Lemma mc_volume : p_volume D = p_volume C.
  Proof. unfold p_volume. now rewrite mc_scat. Qed.
  Lemma mc_missing : p_missing D = p_missing C.
  Proof.
    unfold p_missing. cbn [mapC c_V c_SRF]. destruct (c_V C); [|reflexivity]. destruct (c_SRF C); [|reflexivity]. cbn [res_map rbind]. now rewrite !Hf.
  Qed.
  Lemma mc_calc fe fe' : c_intQ C = false -> p_calc D fe = p_calc C fe'.
  Proof.
    intros Q. unfold p_calc, p_handle, p_calc_body, p_parts. change (c_intQ D) with (c_intQ C). rewrite Q, mc_surface, mc_volume, mc_missing. reflexivity.
  Qed.
End Map.
