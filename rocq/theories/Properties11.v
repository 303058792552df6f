(** C09 (names added later) and the limits of C12, with witnesses. *)
From Coquelicot Require Import Coquelicot.
From Coq Require Import Lia List Permutation.
From Verif Require Import SpecScat SpecExp SpecInt Flip.
From Verif Require Export Properties10 Wit4.
Open Scope string_scope.
Open Scope nat_scope.
Open Scope list_scope.

(** *** C09.  [unused w o kw]: new parameters with numbers as values, with names that are not in R.param_dict,
    are not angle names and do not occur in the definitions of tau, omega, NormBRDF and bsf, in V, SRF or
    the fn-coefficients *)
Definition occurs (w : world) (o : nat) (s : string) : Prop := exists r, obj (w_heap w) o = Ok r /\ relevant (conf (w_heap w) r) s.
Definition unused (w : world) (o : nat) (kw : dict pyval) : Prop :=
  NoDup (dkeys kw) /\ (forall v, In v (dvals kw) -> exists x, v = PNum x) /\
  forall s, In s (dkeys kw) -> ~ In s angle_names /\ ~ occurs w o s /\ forall names, current_names w o names -> ~ In s names.
Definition after_update (w : world) (o : nat) (kw : dict pyval) : world := fst (step w (OUpdate o kw)).

Lemma update_obj w o kw r : obj (w_heap w) o = Ok r ->
  obj (w_heap (after_update w o kw)) o = Ok (upd_rec r kw) /\ forall s, conf (w_heap (after_update w o kw)) s = conf (w_heap w) s.
Proof.
  intros Hr. unfold after_update. cbn [step]. rewrite fst_as_out. destruct (proj1 (eff_update o kw) w r Hr) as [E _]. rewrite E.
  split; [eapply obj_put_same; eassumption|]. intros s. reflexivity.
Qed.
Lemma atleast_rank h a C : C = conf h a -> forall x, p_read C T0 = Ok x -> shp x <> nil.
Proof.
  intros -> x. unfold p_read, p_stored. cbn [conf c_ang]. destruct (r_ang a T0) as [v|]; cbn [option_map]; [|discriminate].
  unfold val1. destruct (deref h v) as [y|]; [cbn [rbind]|discriminate]. intros E. inversion E. unfold atleast_1d. destruct (shp y) eqn:S; [discriminate|]. rewrite S. discriminate.
Qed.
Lemma unused_setup w q o kw r d : good w q -> obj (w_heap w) o = Ok r -> unused w o kw -> p_params (conf (w_heap w) r) = Ok d ->
  exists d', same_setup (conf (w_heap w) r) (conf (w_heap w) (upd_rec r kw)) d d'.
Proof.
  intros G Hr (Nk & Hv & Hu) Hd. set (h := w_heap w) in *.
  assert (Kd : dkeys d = dkeys (r_params r)) by (rewrite (p_params_keys _ _ Hd); cbn [conf c_params]; now rewrite dkeys_map).
  pose proof (proj1 (proj2 (proj1 (good_keys _ _ G)) o r Hr)) as Nr. pose proof (good_HB _ _ G o r Hr) as Hb.
  assert (Nn : NoDup (dkeys (r_params r) ++ dkeys kw)).
  { assert (A : forall s, In s (dkeys kw) -> ~ In s (dkeys (r_params r))).
    { intros s Hs. apply (Hu s Hs). exists r. auto. }
    revert Nr A. generalize (dkeys (r_params r)). intros l Nl A. induction Nl as [|y l Hy Nl IH]; [exact Nk|]. cbn [app]. constructor.
    - rewrite in_app_iff. intros [X|X]; [contradiction|]. apply (A y X). now left.
    - apply IH. intros s Hs X. apply (A s Hs). now right. }
  assert (Ep : r_params (upd_rec r kw) = r_params r ++ s1d kw).
  { rewrite upd_rec_HB by exact Hb. apply dupdate_fresh. replace (dkeys (s1d kw)) with (dkeys kw); [exact Nn|]. unfold dkeys, s1d. rewrite map_map. reflexivity. }
  pose (val := fun v : pyval => match v with PNum x => atleast_1d (scalar x) | PArr _ => scalar NaN end).
  pose (new := map (fun kv => (fst kv, val (snd kv))) kw : dict (nd xr)).
  assert (Hn : rmap (fun kv => let* a := sderef h (snd kv) in Ok (fst kv, a)) (s1d kw) = Ok new).
  { unfold new, s1d. clear -Hv. induction kw as [|[k v] kw IH]; [reflexivity|]. cbn [map fst snd rmap].
    destruct (Hv v (or_introl eq_refl)) as [x ->]. cbn [sderef deref rbind]. rewrite IH; [reflexivity|]. intros u Hu. apply Hv. now right. }
  assert (Hp : p_params (conf h (upd_rec r kw)) = Ok (d ++ new)).
  { rewrite <- (params_conf h _ (upd_rec r kw) eq_refl). unfold params_nd. rewrite Ep. apply rmap_app; [|exact Hn].
    rewrite <- (params_conf h _ r eq_refl) in Hd. exact Hd. }
  assert (Kn : dkeys new = dkeys kw) by (unfold new, dkeys; rewrite map_map; reflexivity).
  exists (d ++ new). constructor; try reflexivity; try assumption.
  - unfold dkeys at 2. rewrite map_app. fold (dkeys d) (dkeys new). rewrite Kn, app_assoc, Kd.
    split; intros X.
    + assert (A : forall s, In s (dkeys kw) -> ~ In s (angle_names ++ dkeys (r_params r))).
      { intros s Hs. destruct (Hu s Hs) as (U1 & _ & U2). rewrite in_app_iff. intros [Y|Y]; [contradiction|]. revert Y. apply U2. exists r. auto. }
      revert X A. generalize (angle_names ++ dkeys (r_params r)). intros l Nl A. induction Nl as [|y l Hy Nl IH]; [exact Nk|]. cbn [app]. constructor.
      * rewrite in_app_iff. intros [Y|Y]; [contradiction|]. apply (A y Y). now left.
      * apply IH. intros s Hs Y. apply (A s Hs). now right.
    + clear -X. induction (angle_names ++ dkeys (r_params r)) as [|y l IH]; [constructor|]. cbn [app] in X. inversion X as [|? ? X1 X2]; subst. constructor; [|now apply IH].
      intros Y. apply X1. apply in_or_app. now left.
  - intros s Rs. symmetry. assert (Ns : ~ In s (dkeys kw)). { intros Hs. destruct (Hu s Hs) as (_ & U & _). apply U. exists r. auto. }
    clear -Ns Kn. rewrite <- Kn in Ns. induction d as [|[k a] d IH]; cbn [app dget]; [now apply dget_None_notin|]. destruct (String.eqb s k); [reflexivity|exact IH].
  - intros t0 tex p0 pex E0 _ _ _. unfold dvals at 2. rewrite !map_app. fold (dvals d) (dvals new). rewrite app_assoc.
    replace (map shp (dvals new)) with (repeat (1 :: nil) (length kw)).
    + symmetry. apply bc_ones. exists (shp t0). split; [cbn [map app In]; now left|]. eapply atleast_rank; [reflexivity|exact E0].
    + unfold new, dvals. rewrite !map_map. clear -Hv. induction kw as [|[k v] kw IH]; [reflexivity|]. cbn [length repeat map fst snd].
      destruct (Hv v (or_introl eq_refl)) as [x ->]. cbn [val]. f_equal. apply IH. intros u Hu. apply Hv. now right.
Qed.

(** the intended property *)
Definition C09_intended : Prop := forall w o kw a,
  tidy w (OUpdate o kw) -> own_fn w o -> snd (step w (OCalc o nil)) = RetArr a -> unused w o kw ->
  snd (step (after_update w o kw) (OCalc o nil)) = RetArr a.
(** it holds if the interaction term is switched off, and until the fn-functions have been compiled *)
Theorem C09_partial : forall w o kw a iq sg db,
  tidy w (OUpdate o kw) -> own_fn w o -> snd (step w (OCalc o nil)) = RetArr a -> unused w o kw ->
  obs_flags w o iq sg db -> iq = false \/ not_compiled w o ->
  snd (step (after_update w o kw) (OCalc o nil)) = RetArr a.
Proof.
  intros w o kw a iq sg db T (r & Hr & Nf & Ne) Ea U (r1 & Hr1 & Q & _) Cn. assert (r1 = r) by congruence. subst r1.
  pose proof (tidy_good _ _ T) as G0.
  assert (G : good w (OCalc o nil)) by (eapply good_other; [exact G0|intros J; apply adm_nil]).
  assert (G2 : good (after_update w o kw) (OCalc o nil)) by (apply good_next; [exact G0|intros J; apply adm_nil]).
  destruct (update_obj w o kw r Hr) as [Hr2 Hc]. destruct (tidy_inv _ _ T) as (F1 & _ & F2 & _).
  rewrite (calc_nil _ _ _ _ G (ex_intro _ r (conj Hr (conj eq_refl eq_refl)))) in Ea.
  rewrite (calc_nil _ _ _ _ G2 (ex_intro _ _ (conj Hr2 (conj eq_refl eq_refl)))). rewrite Hc.
  destruct (good_keys _ _ G) as [K B]. destruct (good_keys _ _ G2) as [K2 B2].
  assert (Pd : exists d, p_params (conf (w_heap w) r) = Ok d).
  { destruct (p_params (conf (w_heap w) r)) as [d|] eqn:E; [eauto|]. exfalso.
    assert (X : forall x, p_scat (conf (w_heap w) r) WSRF <> Ok x).
    { intros x. unfold p_scat. rewrite E. destruct (p_read _ _); [cbn [rbind]|discriminate]. destruct (p_read _ _); [cbn [rbind]|discriminate].
      destruct (p_read _ _); [cbn [rbind]|discriminate]. destruct (p_read _ _); discriminate. }
    destruct (p_calc _ _) as [y|] eqn:Y in Ea; [|discriminate].
    destruct (p_calc_rows _ _ _ Y) as (tau & b & isurf & i0 & mu0 & ivol & iint & _ & Es & _).
    apply p_surface_inv in Es. decompose [ex and] Es. eapply X. eassumption. }
  destruct Pd as [d Pd]. destruct (unused_setup w _ o kw r d G0 Hr U Pd) as [d' S].
  rewrite <- Ea. f_equal. 
  transitivity (p_calc (conf (w_heap w) (upd_rec r kw)) (p_fnev (conf (w_heap w) (upd_rec r kw)))).
  - destruct (r_intQ r) eqn:Q1; [|apply calc_no_int; exact Q1]. f_equal.
    rewrite <- (Hc (upd_rec r kw)). apply fnev_fresh; auto.
    + exact (F2 o _ Hr2).
    + exact (proj2 K2 o _ Hr2).
    + destruct Cn as [Cn|(r1 & Hr1' & Cn)]; [congruence|]. assert (r1 = r) by congruence. subst r1. intros k Hk.
      change (r_fnev (upd_rec r kw)) with (r_fnev r) in Hk. congruence.
  - rewrite (s_calc _ _ _ _ S Ne Ne). destruct (r_intQ r) eqn:Q1; [|now apply calc_no_int]. f_equal. symmetry. apply fnev_fresh; auto.
    + exact (F1 o r Hr).
    + exact (proj2 K o r Hr).
    + destruct Cn as [Cn|(r1 & Hr1' & Cn)]; [congruence|]. assert (r1 = r) by congruence. subst r1. intros k Hk. congruence.
Qed.
Print Assumptions C09_partial.

(** ** Witnesses *)
Definition out_shape (w : world) (p : op) : option (list nat) := match snd (step w p) with RetArr a => Some (shp a) | _ => None end.
Definition opt_shape_eqb (a b : option (list nat)) : bool := match a, b with Some x, Some y => list_nat_eqb x y | _, _ => false end.
Definition chk (w : world) (o : nat) : bool :=
  opt_shape_eqb (out_shape w (OSurface o nil)) (out_shape w (OVolume o nil)) &&
  opt_shape_eqb (out_shape w (OSurface o nil)) (out_shape w (OInteraction o nil)) &&
  match out_shape w (OReadParam o Tau) with Some (_ :: _) => true | _ => false end.
Lemma list_nat_eqb_eq a b : list_nat_eqb a b = true -> a = b.
Proof. unfold list_nat_eqb. destruct (list_eq_dec Nat.eq_dec a b); [auto|discriminate]. Qed.
Lemma calc_vm w o : good w (OCalc o nil) -> chk w o = true -> exists a, snd (step w (OCalc o nil)) = RetArr a.
Proof.
  intros G H. unfold chk, out_shape, opt_shape_eqb in H. apply andb_prop in H. destruct H as [H H3]. apply andb_prop in H. destruct H as [H1 H2].
  destruct (snd (step w (OSurface o nil))) as [| |s| | | |] eqn:E1; try discriminate. destruct (snd (step w (OVolume o nil))) as [| |v| | | |] eqn:E2; try discriminate.
  destruct (snd (step w (OInteraction o nil))) as [| |ii| | | |] eqn:E3; try discriminate. destruct (snd (step w (OReadParam o Tau))) as [| |tau| | | |] eqn:E4; try discriminate.
  apply list_nat_eqb_eq in H1, H2.
  destruct (calc_exists w o s v ii tau G E1 E2 E3 E4) as (a & Ha & _); [destruct (shp tau); discriminate|congruence..|]. eauto.
Qed.
Definition wX (ps : list op) : world := fst (run (init true true) (histC Mono 1 1 0 0 ++ ps)).
(** histories of evaluations and new scalar parameters after [histC] *)
Definition simple_op (p : op) : Prop := match p with OInteraction _ nil | OCalc _ nil | OUpdate _ _ | OParamDict _ => True | _ => False end.
Lemma simple_adm p J h : simple_op p -> J = nil -> adm1 J h p.
Proof. intros H ->. destruct p; try contradiction; cbn; try exact I; intros []. Qed.
Lemma adm_simple ps : Forall simple_op ps -> forall w, adm nil w ps.
Proof. induction 1 as [|p ps H _ IH]; intros w; [exact I|]. split; [now apply simple_adm|]. destruct p; try contradiction; apply IH. Qed.
Lemma adm_cat ps : forall J w qs, adm J w ps -> (forall J' w', J' = fold_left J_after ps J -> adm J' w' qs) -> adm J w (ps ++ qs).
Proof. induction ps as [|p ps IH]; intros J w qs A B; [now apply B|]. destruct A as [A1 A2]. split; [exact A1|]. apply IH; [exact A2|]. intros J' w' ->. now apply B. Qed.
Lemma wX_tidy ps p : Forall simple_op (ps ++ p :: nil) -> tidy (wX ps) p.
Proof.
  intros H. exists true, (histC Mono 1 1 0 0 ++ ps). rewrite <- app_assoc. split; [|split; [|reflexivity]].
  - apply adm_cat; [|intros J' w' ->; now apply adm_simple]. unfold histC. cbn [app]. repeat (split; [try exact I|]); try exact I; intros [].
  - apply Forall_app. split; [unfold histC; cbn [app]; repeat (constructor; [split; [intros []|first [exact I|discriminate]]|]); constructor|].
    eapply Forall_impl; [|exact H]. intros q Hq. destruct q; try contradiction; split; try exact I; intros [].
Qed.
Lemma wX_good ps p : Forall simple_op (ps ++ p :: nil) -> good (wX ps) p.
Proof. intros H. now apply tidy_good, wX_tidy. Qed.
Ltac simple_ops := repeat constructor.

Definition wI := wX (OInteraction 0 nil :: nil).
Notation extra := (("extra", PNum (Fin 7)) :: nil).
Lemma wI_calc : exists a, snd (step wI (OCalc 0 nil)) = RetArr a.
Proof. apply calc_vm; [apply wX_good; simple_ops|vm_compute; reflexivity]. Qed.
Lemma wX_calc : exists a, snd (step (wX nil) (OCalc 0 nil)) = RetArr a.
Proof. apply calc_vm; [apply wX_good; simple_ops|vm_compute; reflexivity]. Qed.
Lemma wI_names : current_names wI 0 ("bsf" :: "tau" :: "omega" :: "NormBRDF" :: "t" :: nil) /\ compiled_for wI 0 ("bsf" :: "tau" :: "omega" :: "NormBRDF" :: "t" :: nil).
Proof. split; [eexists; split; vm_compute; reflexivity|eexists; eexists; split; [vm_compute; reflexivity|split; [vm_compute; reflexivity|vm_compute; reflexivity]]]. Qed.
(** all names that occur, as a list *)
Definition occ_list (C : config) : list string :=
  flat_map (fun p => match c_def C p with CStr e => syms e | _ => nil end) (Tau :: Omega :: NormBRDF :: Bsf :: nil) ++
  match c_V C with Ok s => syms (phase_function s) | _ => nil end ++ match c_SRF C with Ok s => syms (phase_function s) | _ => nil end ++
  match p_fn C with Ok (Some f) => all_syms f | _ => nil end.
Lemma occ_complete C s : relevant C s -> In s (occ_list C).
Proof.
  unfold occ_list. rewrite !in_app_iff, in_flat_map. intros [(p & e & E & Hs)|[(sc & [E|E] & Hs)|(f & E & Hs)]].
  - left. exists p. split; [destruct p; cbn; auto|]. now rewrite E.
  - right; left. now rewrite E.
  - right; right; left. now rewrite E.
  - right; right; right. now rewrite E.
Qed.
Definition occurs_b (w : world) (o : nat) (s : string) : bool :=
  match obj (w_heap w) o with Ok r => existsb (String.eqb s) (occ_list (conf (w_heap w) r)) | _ => true end.
Lemma occurs_b_false w o s : occurs_b w o s = false -> ~ occurs w o s.
Proof.
  unfold occurs_b. intros H (r & Hr & Rl). rewrite Hr in H. apply occ_complete in Rl.
  assert (X : existsb (String.eqb s) (occ_list (conf (w_heap w) r)) = true) by (apply existsb_exists; exists s; split; [exact Rl|apply String.eqb_refl]). congruence.
Qed.
Lemma extra_unused ps : ps = nil \/ ps = OInteraction 0 nil :: nil -> unused (wX ps) 0 extra.
Proof.
  intros Hp. split; [repeat constructor; intros []|]. split; [intros v [<-|[]]; eexists; reflexivity|].
  intros s [<-|[]]. split; [intros X; repeat (destruct X as [X|X]; [discriminate X|]); exact X|]. split.
  - apply occurs_b_false. destruct Hp as [-> | ->]; vm_compute; reflexivity.
  - intros names (r & Hr & ->).
    assert (E : match obj (w_heap (wX ps)) 0 with Ok r => dkeys (r_params r) | _ => nil end = "bsf" :: "tau" :: "omega" :: "NormBRDF" :: "t" :: nil)
      by (destruct Hp as [-> | ->]; vm_compute; reflexivity).
    rewrite Hr in E. rewrite E. intros X; repeat (destruct X as [X|X]; [discriminate X|]); exact X.
Qed.
Lemma wI_own ps : ps = nil \/ ps = OInteraction 0 nil :: nil -> own_fn (wX ps) 0.
Proof. intros [-> | ->]; (eexists; split; [vm_compute; reflexivity|split; reflexivity]). Qed.

(** after interaction() the functions are compiled; a new, unused name makes calc() raise *)
Theorem C09_refuted : ~ C09_intended.
Proof.
  intros Q. destruct wI_calc as [a Ha]. destruct wI_names as [Hn Hc].
  assert (T : tidy wI (OUpdate 0 extra)) by (apply wX_tidy; simple_ops).
  pose proof (Q wI 0 extra a T (wI_own _ (or_intror eq_refl)) Ha (extra_unused _ (or_intror eq_refl))) as Z.
  assert (G : good (after_update wI 0 extra) (OCalc 0 nil)) by (apply good_next; [now apply tidy_good|intros J; apply adm_nil]).
  destruct (C08_added_name_calc_raises (after_update wI 0 extra) 0 nil ("bsf" :: "tau" :: "omega" :: "NormBRDF" :: "t" :: nil)
    ("bsf" :: "tau" :: "omega" :: "NormBRDF" :: "t" :: "extra" :: nil) G) as [e He].
  - eexists; eexists; split; [vm_compute; reflexivity|split; [vm_compute; reflexivity|vm_compute; reflexivity]].
  - eexists; split; vm_compute; reflexivity.
  - discriminate.
  - eexists. split; [vm_compute; reflexivity|]. split; [reflexivity|]. intros t E. vm_compute in E. discriminate.
  - congruence.
Qed.
Print Assumptions C09_refuted.
Example C09_nonvacuous : exists w o kw a, tidy w (OUpdate o kw) /\ own_fn w o /\ snd (step w (OCalc o nil)) = RetArr a /\ unused w o kw /\ kw <> nil /\
  obs_flags w o true false false /\ not_compiled w o.
Proof.
  destruct wX_calc as [a Ha]. exists (wX nil), 0, extra, a. split; [apply wX_tidy; simple_ops|]. split; [apply wI_own; auto|]. split; [exact Ha|].
  split; [apply extra_unused; auto|]. split; [discriminate|]. split; (eexists; split; [vm_compute; reflexivity|auto]).
Qed.

(** C08: the cases of the theorems *)
Example C08_added_nonvacuous : exists w kw old names,
  good w (OInteraction 0 kw) /\ compiled_for w 0 old /\ names_with w 0 kw names /\ names <> old /\ kw <> nil.
Proof.
  exists wI, extra. exists ("bsf" :: "tau" :: "omega" :: "NormBRDF" :: "t" :: nil), ("bsf" :: "tau" :: "omega" :: "NormBRDF" :: "t" :: "extra" :: nil).
  split; [apply tidy_good; exists true, (histC Mono 1 1 0 0 ++ OInteraction 0 nil :: nil); split; [|split; [|reflexivity]]|].
  - rewrite <- app_assoc. apply adm_cat; [|intros J' w' ->; repeat split; intros []]. unfold histC. cbn [app]. repeat (split; [try exact I|]); try exact I; intros [].
  - unfold histC; cbn [app]; repeat (constructor; [split; [intros []|first [exact I|discriminate]]|]); constructor.
  - split; [apply wI_names|]. split; [eexists; split; vm_compute; reflexivity|]. split; discriminate.
Qed.
Example C08_by_name_nonvacuous : exists w a, good w (OInteraction 0 nil) /\ snd (step w (OInteraction 0 nil)) = RetArr a /\
  (exists r, obj (w_heap w) 0 = Ok r /\ r_fnevals_input r = None) /\ compiled_for w 0 ("bsf" :: "tau" :: "omega" :: "NormBRDF" :: "t" :: nil).
Proof.
  assert (A : is_arr (snd (step wI (OInteraction 0 nil))) = true) by (vm_compute; reflexivity). destruct (is_arr_ex _ A) as [a Ha].
  exists wI, a. split; [apply wX_good; simple_ops|]. split; [exact Ha|]. split; [eexists; split; [vm_compute; reflexivity|reflexivity]|apply wI_names].
Qed.

(** *** C12 without the restriction on V and SRF *)
Definition no_mutation_no_switch (p : op) : Prop := match p with OMutate _ _ | OSetBackend _ => False | _ => True end.
Definition C12_intended : Prop := forall seng ps1 ps2 o1 o2,
  let w1 := fst (run (init seng true) ps1) in let w2 := fst (run (init seng true) ps2) in
  Forall no_mutation_no_switch ps1 -> Forall no_mutation_no_switch ps2 ->
  same_configuration w1 o1 w2 o2 -> names_current w1 o1 -> names_current w2 o2 ->
  snd (step w1 (OCalc o1 nil)) = snd (step w2 (OCalc o2 nil)).
Notation VC3 := (VHG (ESym "t") (Some 3) a_vol).
(** V = HenyeyGreenstein with two coefficients or with three *)
Definition histV (v : nat) : list op :=
  ONewScat VC :: ONewScat SC :: ONewScat VC3 :: ONew (Some v) (Some 1) true false false None None (PNum (Fin 2)) ::
  ONewArr (arr2 (1/2) 1) :: ONewArr (arr2 (1/2) 1) :: OSetMono 0 None :: OSetGeometry 0 (("t_0", Some (PArr 0)) :: ("p_0", Some (PNum (Fin 0))) :: nil) ::
  OUpdate 0 (("tau", PArr 1) :: ("omega", PNum (Fin (1/3))) :: ("NormBRDF", PNum (Fin (1/4))) :: ("t", PNum (Fin (1/4))) :: nil) :: nil.
Definition hist_re : list op := histV 0 ++ OInteraction 0 nil :: OSetV 0 2 :: nil.
Theorem C12_refuted : ~ C12_intended.
Proof.
  intros Q. assert (G : good (fst (run (init true true) (histV 2))) (OCalc 0 nil)).
  { exists true, (histV 2). split; [|reflexivity]. unfold histV. cbn [app]. repeat (split; [try exact I|]); try exact I; intros []. }
  destruct (calc_vm _ 0 G) as [a Ha]; [vm_compute; reflexivity|].
  assert (E : snd (step (fst (run (init true true) hist_re)) (OCalc 0 nil)) = Raised ValueError) by (vm_compute; reflexivity).
  rewrite (Q true hist_re (histV 2) 0 0) in E; [congruence|..].
  - repeat constructor.
  - repeat constructor.
  - eexists. eexists. split; [vm_compute; reflexivity|]. split; [vm_compute; reflexivity|]. do 9 (split; [vm_compute; reflexivity|]).
    split; [vm_compute; reflexivity|]. split; [vm_compute; reflexivity|]. split; [intros []; vm_compute; reflexivity|]. split; [reflexivity|].
    split; [intros []; vm_compute; reflexivity|]. eexists. eexists. split; [vm_compute; reflexivity|]. split; [vm_compute; reflexivity|]. reflexivity.
  - right. exists ("bsf" :: "tau" :: "omega" :: "NormBRDF" :: "t" :: nil). split; [eexists; split; vm_compute; reflexivity|].
    eexists; eexists; split; [vm_compute; reflexivity|split; vm_compute; reflexivity].
  - left. eexists. split; vm_compute; reflexivity.
Qed.
Print Assumptions C12_refuted.
(** two different histories that end in the same configuration *)
Example C12_nonvacuous : exists w1 w2, w1 <> w2 /\ tidy w1 (OCalc 0 nil) /\ tidy w2 (OCalc 0 nil) /\ same_configuration w1 0 w2 0 /\
  names_current w1 0 /\ names_current w2 0 /\ (exists a, snd (step w1 (OCalc 0 nil)) = RetArr a).
Proof.
  exists wI, (wX nil). split.
  - intros E. assert (Z : match obj (w_heap wI) 0 with Ok r => match r_fnev r with Some _ => true | _ => false end | _ => false end = true) by (vm_compute; reflexivity).
    rewrite E in Z. vm_compute in Z. discriminate.
  - split; [apply wX_tidy; simple_ops|]. split; [apply wX_tidy; simple_ops|]. split.
    + eexists. eexists. split; [vm_compute; reflexivity|]. split; [vm_compute; reflexivity|]. do 9 (split; [vm_compute; reflexivity|]).
      split; [vm_compute; reflexivity|]. split; [vm_compute; reflexivity|]. split; [intros []; vm_compute; reflexivity|]. split; [reflexivity|].
      split; [intros []; vm_compute; reflexivity|]. eexists. eexists. split; [vm_compute; reflexivity|]. split; [vm_compute; reflexivity|]. reflexivity.
    + split; [right; eexists; apply wI_names|]. split; [left; eexists; split; vm_compute; reflexivity|]. exact wI_calc.
Qed.
