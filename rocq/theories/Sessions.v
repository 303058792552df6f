(** Histories that the widgets can be started on, and the states in which the constructors leave R. *)
From Verif Require Export PlotInit Plot3D Properties29.
Open Scope string_scope. Open Scope nat_scope. Open Scope list_scope.

(** only the derivatives for tau, omega, NormBRDF, bsf were asked of object [o] *)
Definition plain_jacobian (o : nat) (q : op) : Prop :=
  match q with OJacobian o' keys _ => o' = o -> incl keys ["tau"; "omega"; "NormBRDF"; "bsf"] | _ => True end.
(** [w] is reached by a history of calls that only mention existing things, that does not reassign R.V or R.SRF (see
    C06), fixes angles by numbers (see C10) and asks R only for the derivatives of tau, omega, NormBRDF, bsf (see C07) *)
Definition hist (w : world) (o : nat) : Prop :=
  exists seng ps, well_formed (init seng true) ps /\ adm nil (init seng true) ps /\
    Forall (fun q => ~ reassigns q /\ num_arg q /\ plain_jacobian o q) ps /\ w = fst (run (init seng true) ps).

Lemma std_keys keys : incl keys ["tau"; "omega"; "NormBRDF"; "bsf"] -> forallb std_key keys = true.
Proof. intros H. apply forallb_forall. intros x Hx. specialize (H x Hx). cbn in H. destruct H as [<-|[<-|[<-|[<-|[]]]]]; reflexivity. Qed.
Lemma J_plain o q J : plain_jacobian o q -> ~ In o J -> ~ In o (J_after J q).
Proof.
  intros P N. destruct q; cbn [J_after]; try exact N. destruct (forallb std_key keys) eqn:E; [exact N|].
  intros [->|H]; [|contradiction]. rewrite (std_keys keys) in E; [discriminate|]. now apply P.
Qed.
Lemma fold_J o ps : forall J, Forall (plain_jacobian o) ps -> ~ In o J -> ~ In o (fold_left J_after ps J).
Proof. induction ps as [|q ps IH]; intros J F N; [exact N|]. inversion F; subst. cbn [fold_left]. apply IH; [assumption|]. now apply J_plain. Qed.
Lemma well_formed_app ps : forall w qs, well_formed w ps -> well_formed (fst (run w ps)) qs -> well_formed w (ps ++ qs).
Proof. induction ps as [|p ps IH]; intros w qs H K; [exact K|]. destruct H as [H1 H2]. split; [exact H1|]. apply IH; [exact H2|]. rewrite run_cons in K. exact K. Qed.
Lemma plains o ps : Forall (fun q => ~ reassigns q /\ num_arg q /\ plain_jacobian o q) ps -> Forall (plain_jacobian o) ps.
Proof. apply Forall_impl. tauto. Qed.
Lemma hist_step w o p : hist w o -> mentions_existing (w_heap w) p -> (forall J, ~ In o J -> adm1 J (w_heap w) p) ->
  ~ reassigns p -> num_arg p -> plain_jacobian o p -> hist (fst (step w p)) o.
Proof.
  intros (seng & ps & W & A & F & ->) M H N Na P. exists seng, (ps ++ [p]). split; [|split; [|split]].
  - apply well_formed_app; [exact W|]. split; [exact M|exact I].
  - apply adm_app. split; [exact A|]. split; [|exact I]. apply H. apply fold_J; [now apply plains|intros []].
  - apply Forall_app. split; [exact F|]. constructor; auto.
  - rewrite run_app, run_cons. reflexivity.
Qed.
Lemma hist_tidy w o : hist w o -> tidy w (OCalc o nil).
Proof.
  intros (seng & ps & _ & A & F & ->). exists seng, ps. split; [|split; [|reflexivity]].
  - apply adm_app. split; [exact A|]. split; [apply adm_calc_nil|exact I].
  - apply Forall_app. split; [eapply Forall_impl; [|exact F]; cbv beta; tauto|]. constructor; [|constructor]. split; [exact (fun x => x)|exact I].
Qed.
Lemma hist_closed w o : hist w o -> hclosed (w_heap w).
Proof. intros (seng & ps & W & _ & _ & ->). apply run_closed; [apply hclosed_init|exact W]. Qed.
Lemma hist_reached w o : hist w o -> reached w.
Proof. intros (seng & ps & _ & A & _ & ->). exists seng, ps. auto. Qed.

(** the check reads R._all_param_symbs and changes nothing else *)
Lemma check_world o given add w : fst (check_params o given add w) = fst (step w (OSymbs o)).
Proof.
  cbn [step]. rewrite fst_as_out. unfold check_params, bind at 1. destruct (all_param_symbs o w) as [u [ss|e]]; [|reflexivity]. cbn [fst].
  unfold bind at 1. unfold get_obj at 1, gets at 1. destruct (obj (w_heap u) o); [|reflexivity]. unfold bind at 1, gets.
  destruct (let* _ := _ in _) as [l|e]; [|reflexivity].
  cbv zeta. destruct (filter _ (dedup _)); [reflexivity|]. destruct (filter _ _); reflexivity.
Qed.

(** reading the names changes no object *)
Definition hk {A} (m : M A) : Prop := forall w, w_heap (fst (m w)) = w_heap w.
Lemma hk_bind {A B} (m : M A) (k : A -> M B) : hk m -> (forall a, hk (k a)) -> hk (bind m k).
Proof. intros H K w. unfold bind. specialize (H w). destruct (m w) as [u [a|e]]; cbn [fst] in *; [rewrite K; exact H|exact H]. Qed.
Lemma hk_ret {A} (a : A) : hk (ret a). Proof. intros w. reflexivity. Qed.
Lemma hk_fail {A} e : hk (@fail A e). Proof. intros w. reflexivity. Qed.
Lemma hk_lift {A} (x : res A) : hk (lift x). Proof. intros w. reflexivity. Qed.
Lemma hk_gets {A} (f : heap -> res A) : hk (gets f). Proof. intros w. reflexivity. Qed.
Lemma hk_cached n k m : hk m -> hk (cached n k m).
Proof.
  intros H w. unfold cached. destruct (w_on w); [|apply H]. destruct (lru_get _ _); [reflexivity|]. specialize (H w).
  destruct (m w) as [u [v|e]]; exact H.
Qed.
Lemma hk_symbs o p : hk (get_param_symbs o p).
Proof. unfold get_param_symbs. repeat first [apply hk_cached | apply hk_bind; [|intros] | apply hk_ret | apply hk_fail | apply hk_lift | apply hk_gets]. Qed.
Lemma symbs_heap o w : w_heap (fst (step w (OSymbs o))) = w_heap w.
Proof. cbn [step]. rewrite fst_as_out. revert w. unfold all_param_symbs. change (hk (do a <- get_param_symbs o Tau ;; do b <- get_param_symbs o Omega ;; do c <- get_param_symbs o NormBRDF ;; do d <- get_param_symbs o Bsf ;; ret (a ++ b ++ c ++ d))). repeat (apply hk_bind; [apply hk_symbs|intros]). apply hk_ret. Qed.

Lemma mentions_obj h p o r : target p = Some o -> obj h o = Ok r -> args_exist h p -> mentions_existing h p.
Proof. intros T Hr A. split; [|exact A]. intros o' E. assert (o' = o) by congruence. subst o'. apply has_obj_at. eauto. Qed.
Lemma geo_arrs o kw w r : obj (w_heap w) o = Ok r -> h_arrs (w_heap (fst (step w (OSetGeometry o kw)))) = h_arrs (w_heap w).
Proof. intros Hr. cbn [step]. rewrite fst_as_out. destruct (eff_geo o kw w r Hr) as [-> _]. reflexivity. Qed.

(** R computes its own fn-functions *)
Definition own_functions (w : world) (o : nat) : Prop := exists r, obj (w_heap w) o = Ok r /\ r_fnevals_input r = None.

Lemma In_dupdate_kw {A} (kw : dict A) : forall d x, In x (dkeys kw) -> In x (dkeys (dupdate d kw)).
Proof.
  induction kw as [|[k v] kw IH]; intros d x H; [destruct H|]. cbn in H. destruct H as [->|H]; [|now apply (IH (dset d k v))].
  change (In x (dkeys (dupdate (dset d x v) kw))). apply In_dkeys_dupdate. apply In_dkeys_dset. now right.
Qed.
(** where the constructor of Analyze leaves R, if it does not raise *)
Lemma start_attached w o kw sl : hist w o -> own_functions w o -> snd (analyze_start o kw w) = Ok sl ->
  hist (fst (analyze_start o kw w)) o /\ attached (fst (analyze_start o kw w)) o (dkeys sl).
Proof.
  intros H (r & Hr & Hi) S. unfold analyze_start, analyze_sliders in *.
  destruct (analyze_geometry_at w o r Hr) as (i & S1 & E1 & O1 & A1 & Ex & Sc & Oth).
  set (u1 := fst (step w (OSetMono o (Some (FNum 0%Q))))) in *. set (u2 := fst (step u1 (ONewArr inc_angles))) in *. set (u3 := fst (analyze_geometry o w)) in *.
  assert (O1' : obj (w_heap u1) o = Ok (fst (mono_rec (Some (FNum 0%Q)) r))).
  { unfold u1. cbn [step]. rewrite fst_as_out. destruct (proj1 (eff_mono o (Some (FNum 0%Q))) w r Hr) as [-> _]. eapply obj_hput_same; exact Hr. }
  assert (O2' : obj (w_heap u2) o = Ok (fst (mono_rec (Some (FNum 0%Q)) r))) by exact O1'.
  assert (H1 : hist u1 o) by (apply hist_step; auto; try (intros; exact I); try exact (fun x => x); try (cbn; discriminate); try (eapply mentions_obj; [reflexivity|exact Hr|exact I])).
  assert (H2 : hist u2 o) by (apply hist_step; auto; try (intros; exact I); try exact (fun x => x); try (split; [discriminate|exact I])).
  assert (H3 : hist u3 o).
  { rewrite E1. apply hist_step; auto; try (intros; exact I); try exact (fun x => x). eapply mentions_obj; [reflexivity|exact O2'|].
    intros k v [E|[]]. injection E as <- <-. cbn [has_val]. rewrite E1, (geo_arrs _ _ _ _ O2') in A1. apply nth_error_Some. congruence. }
  set (u4 := fst (step u3 (OSymbs o))).
  assert (H4 : hist u4 o) by (apply hist_step; auto; try (intros; exact I); try exact (fun x => x); try (eapply mentions_obj; [reflexivity|exact O1|exact I])).
  assert (O4 : obj (w_heap u4) o = Ok (geo_obj r i)) by (unfold u4; rewrite symbs_heap; exact O1).
  assert (E : analyze_geometry o w = (u3, Ok tt)) by (unfold u3; rewrite <- S1; apply surjective_pairing).
  pose proof (check_world o (dkeys kw) [] u3) as Cw. fold u4 in Cw.
  assert (Q : (do sl <- (analyze_geometry o ;;; (do symbs <- check_params o (dkeys kw) [] ;; lift (init_sliders (filter (fun kv => mem (fst kv) symbs) kw)))) ;; call_op (OUpdate o (slider_vals sl)) ;;; ret sl) w =
    (fst (step u4 (OUpdate o (slider_vals sl))), Ok sl)).
  { revert S. unfold bind. rewrite E. destruct (check_params o (dkeys kw) [] u3) as [u [symbs|e]]; [|discriminate]. cbn [fst] in Cw. subst u. unfold lift.
    destruct (init_sliders _) as [sl'|e] eqn:Es; [|discriminate]. rewrite call_op_eq, (update_out _ _ _ _ O4). cbn [op_res]. unfold ret. cbn [fst snd]. intros S. injection S as ->. reflexivity. }
  rewrite Q. cbn [fst]. clear S Q.
  assert (H5 : hist (fst (step u4 (OUpdate o (slider_vals sl)))) o).
  { apply hist_step; auto; try (intros; exact I); try exact (fun x => x).
    - eapply mentions_obj; [reflexivity|exact O4|]. apply slider_vals_exist.
    - intros J N Hin. contradiction. }
  split; [exact H5|]. assert (O5 : obj (w_heap (fst (step u4 (OUpdate o (slider_vals sl))))) o = Ok (upd_rec (geo_obj r i) (slider_vals sl))).
  { rewrite (step_update _ _ _ _ O4). eapply obj_hput_same; exact O4. }
  set (v := fst (step u4 (OUpdate o (slider_vals sl)))) in *.
  pose proof (hist_tidy _ _ H5) as T5. destruct H5 as (seng & ps & W & A & F & Ev).
  exists seng, ps, (dkeys (r_params (upd_rec (geo_obj r i) (slider_vals sl)))).
  split; [exact W|]. split.
  { apply adm_app. split; [exact A|]. split; [apply adm_calc_nil|exact I]. }
  split.
  { apply Forall_app. split; [eapply Forall_impl; [|exact F]; cbv beta; tauto|]. constructor; [|constructor]. split; [exact (fun x => x)|exact I]. }
  split; [exact Ev|]. split; [exists (upd_rec (geo_obj r i) (slider_vals sl)); split; [exact O5|exact Hi]|].
  split; [apply (up_to_date_current _ _ _ O5); intros k; discriminate|].
  split; [eexists; split; [exact O5|reflexivity]|].
  intros s Hs. unfold upd_rec. cbn [with_params r_params]. apply In_dupdate_kw. rewrite dkeys_map.
  assert (In s (dkeys (slider_vals sl))) by (rewrite slider_vals_keys; exact Hs). unfold upd_kw.
  destruct (r_def (geo_obj r i) Bsf) as [e| |]; try assumption. destruct e; try assumption. destruct (_ && _ && _); [|assumption].
  unfold dkeys. rewrite map_app. apply in_app_iff. now left.
Qed.

(** ** Analyze3D *)
Definition bi_obj (r : rt1) : rt1 := fst (bi_rec None None (Some (FNum 0%Q)) None (with_flags r (r_intQ r) (r_sig0 r) false)).
Lemma upd_ang r kw a : r_ang (upd_rec r kw) a = r_ang r a. Proof. reflexivity. Qed.
Lemma upd_fni r kw : r_fnevals_input (upd_rec r kw) = r_fnevals_input r. Proof. reflexivity. Qed.
Lemma geo3_fni_gen r a v : r_fnevals_input (with_ang r a v) = r_fnevals_input r. Proof. reflexivity. Qed.
Lemma fixed_ang r a v : r_fixed (with_ang r a v) = r_fixed r. Proof. reflexivity. Qed.
Lemma bi_mono r : r_mono (bi_obj r) = false. Proof. reflexivity. Qed.
Lemma bi_fixed r : r_fixed (bi_obj r) = [P0]. Proof. reflexivity. Qed.
Definition geo3_obj (r : rt1) (i : nat) : rt1 := with_ang (with_ang (with_ang (bi_obj r) T0 (PArr i)) TEx (PArr (S i))) PEx (PArr (S (S i))).
Section Geo3.
  Context (w : world) (o : nat) (r : rt1) (c : string) (n : nat).
  Hypothesis (Hr : obj (w_heap w) o = Ok r).
  Let u1 := fst (step w (OSetFlags o (r_intQ r) (r_sig0 r) false)).
  Let u2 := fst (step u1 (OClear o)).
  Let u3 := fst (step u2 (OSetBi o None None (Some (FNum 0%Q)) None)).
  Let u4 := fst (step u3 (ONewArr (mesh_t0 n))).
  Let u5 := fst (step u4 (ONewArr (mesh_tex n))).
  Let u6 := fst (step u5 (ONewArr (mesh_pex n))).
  Let i := length (h_arrs (w_heap w)).
  Let kw := [("t_0", Some (PArr i)); ("t_ex", Some (PArr (S i))); ("p_ex", Some (PArr (S (S i))))].
  Definition g3 := fst (step (fst (step (fst (step (fst (step (fst (step (fst (step (fst (step w (OSetFlags o (r_intQ r) (r_sig0 r) false))) (OClear o)))
    (OSetBi o None None (Some (FNum 0%Q)) None))) (ONewArr (mesh_t0 n)))) (ONewArr (mesh_tex n)))) (ONewArr (mesh_pex n))))
    (OSetGeometry o [("t_0", Some (PArr (length (h_arrs (w_heap w))))); ("t_ex", Some (PArr (S (length (h_arrs (w_heap w)))))); ("p_ex", Some (PArr (S (S (length (h_arrs (w_heap w)))))))])).
  Lemma geo3_at :
    w_heap (fst (step u1 (OClear o))) = w_heap u1 /\ obj (w_heap u1) o = Ok (with_flags r (r_intQ r) (r_sig0 r) false) /\
    obj (w_heap g3) o = Ok (geo3_obj r i) /\ h_arrs (w_heap g3) = h_arrs (w_heap w) ++ [mesh_t0 n; mesh_tex n; mesh_pex n] /\
    h_scats (w_heap g3) = h_scats (w_heap w) /\ h_be (w_heap g3) = h_be (w_heap w) /\ h_seng (w_heap g3) = h_seng (w_heap w) /\
    (forall us, use_contribs c = Ok us -> analyze3d_geometry o c n w = (g3, Ok us)) /\
    (forall e, use_contribs c = Err e -> analyze3d_geometry o c n w = (u2, Err e)) /\
    (hist w o -> hist g3 o) /\ (reached w -> reached g3) /\ (reached w -> reached u2) /\
    (forall o', o' <> o -> obj (w_heap g3) o' = obj (w_heap w) o').
  Proof.
    assert (Y1 : step w (OSetFlags o (r_intQ r) (r_sig0 r) false) = (u1, RetNone)).
    { unfold u1. cbn [step]. unfold as_out, bind, get_obj, gets. rewrite Hr. reflexivity. }
    assert (X1 : w_heap u1 = hput (w_heap w) o (with_flags r (r_intQ r) (r_sig0 r) false)).
    { unfold u1. cbn [step]. unfold as_out, bind, get_obj, gets. rewrite Hr. reflexivity. }
    assert (O1 : obj (w_heap u1) o = Ok (with_flags r (r_intQ r) (r_sig0 r) false)) by (rewrite X1; eapply obj_hput_same; exact Hr).
    assert (Y2 : step u1 (OClear o) = (u2, RetNone) /\ w_heap u2 = w_heap u1).
    { unfold u2. cbn [step]. unfold as_out, bind, get_obj, gets. rewrite O1. split; reflexivity. }
    destruct Y2 as [Y2 X2].
    assert (O2 : obj (w_heap u2) o = Ok (with_flags r (r_intQ r) (r_sig0 r) false)) by (rewrite X2; exact O1).
    pose proof (proj1 (eff_bi o None None (Some (FNum 0%Q)) None) u2 _ O2) as [H3 S3].
    assert (X3 : w_heap u3 = hput (w_heap u2) o (bi_obj r)) by (unfold u3; cbn [step]; rewrite fst_as_out; exact H3).
    assert (Y3 : step u2 (OSetBi o None None (Some (FNum 0%Q)) None) = (u3, RetNone)).
    { unfold u3. cbn [step]. unfold as_out. destruct (set_bistatic o None None (Some (FNum 0%Q)) None u2) as [u x]. cbn [snd fst] in *. rewrite S3. reflexivity. }
    assert (O3 : obj (w_heap u3) o = Ok (bi_obj r)) by (rewrite X3; eapply obj_hput_same; exact O2).
    assert (L3 : h_arrs (w_heap u3) = h_arrs (w_heap w)) by (rewrite X3, X2, X1; reflexivity).
    assert (O6 : obj (w_heap u6) o = Ok (bi_obj r)) by exact O3.
    assert (A6 : h_arrs (w_heap u6) = h_arrs (w_heap w) ++ [mesh_t0 n; mesh_tex n; mesh_pex n]).
    { change (h_arrs (w_heap u6)) with (((h_arrs (w_heap u3) ++ [mesh_t0 n]) ++ [mesh_tex n]) ++ [mesh_pex n]). rewrite L3, <- !app_assoc. reflexivity. }
    assert (Z4 : add_arr (mesh_t0 n) u3 = (u4, Ok i)) by (change (add_arr (mesh_t0 n) u3) with (u4, Ok (length (h_arrs (w_heap u3)))); rewrite L3; reflexivity).
    assert (Z5 : add_arr (mesh_tex n) u4 = (u5, Ok (S i))).
    { change (add_arr (mesh_tex n) u4) with (u5, Ok (length (h_arrs (w_heap u3) ++ [mesh_t0 n]))). rewrite app_length, L3. cbn [length]. rewrite Nat.add_1_r. reflexivity. }
    assert (Z6 : add_arr (mesh_pex n) u5 = (u6, Ok (S (S i)))).
    { change (add_arr (mesh_pex n) u5) with (u6, Ok (length ((h_arrs (w_heap u3) ++ [mesh_t0 n]) ++ [mesh_tex n]))). rewrite !app_length, L3. cbn [length]. rewrite !Nat.add_1_r. reflexivity. }
    pose proof (eff_geo o kw u6 _ O6) as [H7 S7].
    assert (Gr : geo_rec kw (bi_obj r) = (geo3_obj r i, Ok tt)).
    { unfold geo_rec, kw. cbn [ang_kw rmap opt_res option_map angle_of_str String.eqb Ascii.eqb Bool.eqb fst snd rbind].
      rewrite bi_mono, andb_false_r. cbn [geo_loop]. rewrite (bi_fixed r). cbn [existsb angle_eqb orb].
      rewrite fixed_ang, (bi_fixed r). cbn [existsb angle_eqb orb].
      rewrite !fixed_ang, (bi_fixed r). cbn [existsb angle_eqb orb]. reflexivity. }
    rewrite Gr in H7, S7. cbn [fst snd] in H7, S7.
    assert (X7 : w_heap g3 = hput (w_heap u6) o (geo3_obj r i)) by (unfold g3; cbn [step]; rewrite fst_as_out; exact H7).
    assert (Y7 : step u6 (OSetGeometry o kw) = (g3, RetNone)).
    { change g3 with (fst (step u6 (OSetGeometry o kw))). cbn [step]. unfold as_out. destruct (set_geometry o kw u6) as [u x]. cbn [snd fst] in *. rewrite S7. reflexivity. }
    split; [exact X2|]. split; [exact O1|]. split; [rewrite X7; eapply obj_hput_same; exact O6|].
    split; [rewrite X7; exact A6|].
    split; [rewrite X7; change (h_scats (w_heap u3) = h_scats (w_heap w)); rewrite X3, X2, X1; reflexivity|].
    split; [rewrite X7; change (h_be (w_heap u3) = h_be (w_heap w)); rewrite X3, X2, X1; reflexivity|].
    split; [rewrite X7; change (h_seng (w_heap u3) = h_seng (w_heap w)); rewrite X3, X2, X1; reflexivity|].
    assert (P0 : analyze3d_geometry o c n w = (do us <- lift (use_contribs c) ;; call_op (OSetBi o None None (Some (FNum 0%Q)) None) ;;;
      (do i <- add_arr (mesh_t0 n) ;; do j <- add_arr (mesh_tex n) ;; do k <- add_arr (mesh_pex n) ;;
       call_op (OSetGeometry o [("t_0", Some (PArr i)); ("t_ex", Some (PArr j)); ("p_ex", Some (PArr k))]) ;;; ret us)) u2).
    { unfold analyze3d_geometry. unfold bind at 1. unfold get_obj, gets. rewrite Hr. unfold bind at 1. unfold call_op at 1. rewrite Y1. unfold bind at 1. unfold call_op at 1. rewrite Y2. reflexivity. }
    split; [|split].
    { intros us Eu. rewrite P0. unfold bind at 1. unfold lift. rewrite Eu. unfold bind at 1. unfold call_op at 1. rewrite Y3. unfold bind at 1. rewrite Z4. unfold bind at 1. rewrite Z5. unfold bind at 1. rewrite Z6.
      unfold bind at 1. unfold call_op at 1. fold kw. rewrite Y7. reflexivity. }
    { intros e Eu. rewrite P0. unfold bind at 1. unfold lift. rewrite Eu. reflexivity. }
    split; [|split; [|split]].
    - intros H.
      assert (H1 : hist u1 o) by (apply hist_step; auto; try (intros; exact I); try exact (fun x => x); try (eapply mentions_obj; [reflexivity|exact Hr|exact I])).
      assert (H2 : hist u2 o) by (apply hist_step; auto; try (intros; exact I); try exact (fun x => x); try (eapply mentions_obj; [reflexivity|exact O1|exact I])).
      assert (H3' : hist u3 o) by (apply hist_step; auto; try (intros; exact I); try exact (fun x => x); try (cbn; repeat split; discriminate); try (eapply mentions_obj; [reflexivity|exact O2|exact I])).
      assert (H4 : hist u4 o) by (apply hist_step; auto; try (intros; exact I); try exact (fun x => x); try (split; [discriminate|exact I])).
      assert (H5 : hist u5 o) by (apply hist_step; auto; try (intros; exact I); try exact (fun x => x); try (split; [discriminate|exact I])).
      assert (H6 : hist u6 o) by (apply hist_step; auto; try (intros; exact I); try exact (fun x => x); try (split; [discriminate|exact I])).
      change (hist (fst (step u6 (OSetGeometry o kw))) o). apply hist_step; auto; try (intros; exact I); try exact (fun x => x).
      eapply mentions_obj; [reflexivity|exact O6|]. intros k v Hin. assert (L : length (h_arrs (w_heap u6)) = 3 + i) by (rewrite A6, app_length; cbn; unfold i; lia).
      destruct Hin as [E|[E|[E|[]]]]; injection E as <- <-; cbn [has_val]; rewrite L; lia.
    - intros G. unfold g3. repeat (apply reached_step; [|intros; exact I]). exact G.
    - intros G. unfold u2, u1. repeat (apply reached_step; [|intros; exact I]). exact G.
    - intros o' N. rewrite X7, obj_hput_other by congruence. change (obj (w_heap u3) o' = obj (w_heap w) o'). rewrite X3, X2, X1. rewrite !obj_hput_other by congruence. reflexivity.
  Qed.
End Geo3.

(** the same for any object with such angles *)
Lemma grid_gen h i n q kw : h_arrs h = i ++ [mesh_t0 n; mesh_tex n; mesh_pex n] ->
  r_fixed q = [P0] -> r_mono q = false -> r_ang q TEx = Some (PArr (S (length i))) -> r_ang q PEx = Some (PArr (S (S (length i)))) ->
  r_ang q P0 = Some (PNum (Fin (Q2R 0))) -> r_ang q T0 = Some (PArr (length i)) ->
  Plot3D.grid (upd_rec q kw) (PArr (S (length i))) (PArr (S (S (length i)))) /\ read_ang h (upd_rec q kw) TEx = Ok (mesh_tex n) /\ read_ang h (upd_rec q kw) PEx = Ok (mesh_pex n) /\ read_ang h (upd_rec q kw) T0 = Ok (mesh_t0 n) /\ read_ang h (upd_rec q kw) P0 = Ok (mk_nd [1] (fun _ => Fin (Q2R 0))) /\ incl (dkeys kw) (dkeys (r_params (upd_rec q kw))).
Proof.
  intros Av F Mo B2 B3 B4 B5.
  split; [unfold Plot3D.grid; change (r_fixed (upd_rec q kw)) with (r_fixed q); change (r_mono (upd_rec q kw)) with (r_mono q); rewrite !upd_ang, F, Mo, B2, B3; repeat split|].
  assert (Rd : forall a k A, r_ang q a = Some (PArr k) -> nth_error (h_arrs h) k = Some A -> shp A <> [] -> read_ang h (upd_rec q kw) a = Ok A).
  { intros a k A Ea Ek Es. unfold read_ang, stored_ang. change (r_mono (upd_rec q kw)) with (r_mono q). rewrite Mo, !upd_ang. destruct a; rewrite Ea; cbn [deref rbind]; rewrite Ek; cbn [opt_res rbind]; unfold atleast_1d; destruct (shp A); congruence. }
  assert (Nt : forall m A, nth_error [mesh_t0 n; mesh_tex n; mesh_pex n] m = Some A -> nth_error (h_arrs h) (m + length i) = Some A).
  { intros m A E. rewrite Av, nth_error_app2 by lia. replace (m + length i - length i) with m by lia. exact E. }
  split; [apply (Rd _ _ _ B2); [apply (Nt 1); reflexivity|discriminate]|].
  split; [apply (Rd _ _ _ B3); [apply (Nt 2); reflexivity|discriminate]|].
  split; [apply (Rd _ _ _ B5); [apply (Nt 0); reflexivity|discriminate]|].
  split; [unfold read_ang, stored_ang; rewrite upd_ang, B4; reflexivity|].
  intros s Hs. unfold upd_rec. cbn [with_params r_params]. apply In_dupdate_kw. rewrite dkeys_map. unfold upd_kw.
  destruct (r_def _ Bsf) as [e| |]; try assumption. destruct e; try assumption. destruct (_ && _ && _); [|assumption].
  unfold dkeys. rewrite map_app. apply in_app_iff. now left.
Qed.

(** the constructor of Analyze3D up to the first evaluation, if it does not raise *)
Section Start3.
  Context (w : world) (o : nat) (r : rt1) (c : string) (n : nat) (kw : dict (list entry)) (us : list nat) (sl : dict slider).
  Hypothesis (Hr : obj (w_heap w) o = Ok r).
  Lemma sliders3_world x : snd (analyze3d_sliders o c n kw w) = Ok x ->
    fst (analyze3d_sliders o c n kw w) = fst (step (g3 w o r n) (OSymbs o)) /\ use_contribs c = Ok (fst x) /\
    exists symbs sl0, snd (check_params o (dkeys kw) [] (g3 w o r n)) = Ok symbs /\ init_sliders (filter (fun kv => mem (fst kv) symbs) kw) = Ok sl0 /\ snd x = dset sl0 "inc" inc_slider.
  Proof.
    destruct (geo3_at w o r c n Hr) as (_ & _ & _ & _ & _ & _ & _ & Gu & Ge & _). unfold analyze3d_sliders, bind.
    destruct (use_contribs c) as [us0|e]; [rewrite (Gu us0 eq_refl)|rewrite (Ge e eq_refl); discriminate].
    pose proof (check_world o (dkeys kw) [] (g3 w o r n)) as Cw.
    destruct (check_params o (dkeys kw) [] (g3 w o r n)) as [u [symbs|e]]; [|discriminate]. cbn [fst] in Cw. subst u. unfold lift.
    destruct (init_sliders _) as [sl0|e] eqn:Es; [|discriminate]. unfold ret. cbn [fst snd]. intros E. injection E as <-. cbn [fst snd].
    split; [reflexivity|]. split; [reflexivity|]. exists symbs, sl0. auto.
  Qed.
  Hypothesis (H : hist w o) (Hi : r_fnevals_input r = None) (St : snd (start3d o c n kw w) = Ok (us, sl)).
  Let i := length (h_arrs (w_heap w)).
  Let v := fst (start3d o c n kw w).
  Definition r3 := upd_rec (geo3_obj r (length (h_arrs (w_heap w)))) (slider_vals (without_inc sl)).
  Lemma start3_state : use_contribs c = Ok us /\ hist v o /\ obj (w_heap v) o = Ok r3 /\
    h_arrs (w_heap v) = h_arrs (w_heap w) ++ [mesh_t0 n; mesh_tex n; mesh_pex n] /\ h_scats (w_heap v) = h_scats (w_heap w) /\
    h_be (w_heap v) = h_be (w_heap w) /\ h_seng (w_heap v) = h_seng (w_heap w) /\
    (forall o', o' <> o -> obj (w_heap v) o' = obj (w_heap w) o') /\
    exists symbs sl0, snd (check_params o (dkeys kw) [] (g3 w o r n)) = Ok symbs /\ init_sliders (filter (fun kv => mem (fst kv) symbs) kw) = Ok sl0 /\ sl = dset sl0 "inc" inc_slider.
  Proof.
    destruct (geo3_at w o r c n Hr) as (_ & _ & O3 & A3 & Sc & Be & Se & _ & _ & Hg & _ & _ & Oth). fold i in O3. specialize (Hg H).
    assert (exists x, snd (analyze3d_sliders o c n kw w) = Ok x) as [x Ex].
    { unfold start3d, bind in St. destruct (analyze3d_sliders o c n kw w) as [u [x|e]]; [exists x; reflexivity|discriminate]. }
    destruct (sliders3_world x Ex) as (Wx & Ux & symbs & sl0 & K1 & K2 & K3).
    set (u := fst (step (g3 w o r n) (OSymbs o))) in *.
    assert (Ou : obj (w_heap u) o = Ok (geo3_obj r i)) by (unfold u; rewrite symbs_heap; exact O3).
    assert (Hu : hist u o) by (apply hist_step; auto; try (intros; exact I); try exact (fun x => x); try (eapply mentions_obj; [reflexivity|exact O3|exact I])).
    assert (E : start3d o c n kw w = (fst (step u (OUpdate o (slider_vals (without_inc (snd x))))), Ok x)).
    { unfold start3d. unfold bind at 1. rewrite (surjective_pairing (analyze3d_sliders o c n kw w)), Ex, Wx. unfold bind. rewrite call_op_eq, (update_out _ _ _ _ Ou). reflexivity. }
    assert (Ev : v = fst (step u (OUpdate o (slider_vals (without_inc (snd x)))))) by (unfold v; rewrite E; reflexivity).
    assert (x = (us, sl)) as ->.
    { rewrite E in St. cbn [snd] in St. congruence. }
    cbn [fst snd] in *. rewrite Ev. clear Ev. split; [exact Ux|]. split.
    { apply hist_step; auto; try exact I; try exact (fun x => x).
      - eapply mentions_obj; [reflexivity|exact Ou|]. apply slider_vals_exist.
      - intros J N Hin. contradiction. }
    rewrite (step_update _ _ _ _ Ou). split; [eapply obj_hput_same; exact Ou|].
    unfold u. rewrite symbs_heap. split; [exact A3|]. split; [exact Sc|]. split; [exact Be|]. split; [exact Se|].
    split; [intros o' N; rewrite obj_hput_other by congruence; now apply Oth|]. exists symbs, sl0. auto.
  Qed.
  Lemma bi_ang_upd : r_params (geo3_obj r i) = r_params r /\ r_ang (geo3_obj r i) TEx = Some (PArr (S i)) /\ r_ang (geo3_obj r i) PEx = Some (PArr (S (S i))) /\
    r_ang (geo3_obj r i) P0 = Some (PNum (Fin (Q2R 0))) /\ r_ang (geo3_obj r i) T0 = Some (PArr i).
  Proof. split; [reflexivity|]. split; [reflexivity|]. split; [reflexivity|]. split; reflexivity. Qed.
  Lemma start3_grid : Plot3D.grid r3 (PArr (S i)) (PArr (S (S i))) /\ read_ang (w_heap v) r3 TEx = Ok (mesh_tex n) /\ read_ang (w_heap v) r3 PEx = Ok (mesh_pex n) /\
    read_ang (w_heap v) r3 T0 = Ok (mesh_t0 n) /\ read_ang (w_heap v) r3 P0 = Ok (mk_nd [1] (fun _ => Fin (Q2R 0))) /\
    hclosed (w_heap v) /\ incl (dkeys (without_inc sl)) (dkeys (r_params r3)) /\ r_fnevals_input r3 = None /\ updatable v o.
  Proof.
    destruct start3_state as (_ & Hv & Ov & Av & _). destruct bi_ang_upd as (B1 & B2 & B3 & B4 & B5).
    destruct (grid_gen (w_heap v) (h_arrs (w_heap w)) n (geo3_obj r i) (slider_vals (without_inc sl)) Av) as (K1 & K2 & K3 & K4 & K5 & K6);
      [unfold geo3_obj; rewrite !fixed_ang; apply bi_fixed|reflexivity|exact B2|exact B3|exact B4|exact B5|].
    split; [exact K1|]. split; [exact K2|]. split; [exact K3|]. split; [exact K4|]. split; [exact K5|].
    split; [eapply hist_closed; exact Hv|]. split; [rewrite slider_vals_keys in K6; exact K6|].
    split; [unfold r3; rewrite upd_fni; unfold geo3_obj; rewrite !geo3_fni_gen; exact Hi|].
    split; [now apply hist_tidy|]. apply (up_to_date_current _ _ _ Ov). intros k Ek. discriminate Ek.
  Qed.
End Start3.
