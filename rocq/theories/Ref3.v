(** What Analyze3D evaluates, compared with the same settings made by plain calls on R. *)
From Coq Require Import FunctionalExtensionality.
From Verif Require Export Sessions.
Open Scope string_scope. Open Scope nat_scope. Open Scope list_scope.

(** the grid of exit directions, and an array of the same shape with the incidence angle (degrees) *)
Definition theta_grid (n : nat) : nd xr := mk_nd [n; n] (fun i => Fin (INR (nth 0 i 0%nat) / INR (n - 1) * (89 * PI / 180))%R).
Definition phi_grid (n : nat) : nd xr := mk_nd [n; n] (fun i => Fin (INR (nth 1 i 0%nat) / INR (n - 1) * (2 * PI) - PI)%R).
Definition inc_grid (n : nat) (inc : R) : nd xr := mk_nd [n; n] (fun _ => Fin (inc * PI / 180)%R).
Lemma mesh_tex_grid n : mesh_tex n = theta_grid n.
Proof. unfold mesh_tex, theta_grid. f_equal. apply functional_extensionality. intros i. f_equal. unfold lin, Rdiv. ring. Qed.
Lemma mesh_pex_grid n : mesh_pex n = phi_grid n.
Proof. unfold mesh_pex, phi_grid. f_equal. apply functional_extensionality. intros i. f_equal. unfold lin, Rdiv. generalize (/ INR (n - 1))%R. intros k. field. Qed.
Lemma full_grid n inc : full_t inc (mesh_tex n) = inc_grid n inc.
Proof. unfold full_t, inc_grid, mesh_tex. cbn [shp]. f_equal. apply functional_extensionality. intros i. f_equal. unfold Rdiv. ring. Qed.

(** R.int_Q = b, R.dB = False, R.set_bistatic(p_0=0), R.set_geometry(t_0, t_ex, p_ex) on the grid, R.update_params of the
    values *)
Definition by_calls (o : nat) (b sg : bool) (n : nat) (inc : R) (kw : dict pyval) (i : nat) : list op :=
  [OSetFlags o b sg false; OSetBi o None None (Some (FNum 0%Q)) None; ONewArr (inc_grid n inc); ONewArr (theta_grid n); ONewArr (phi_grid n);
   OSetGeometry o [("t_0", Some (PArr i)); ("t_ex", Some (PArr (S i))); ("p_ex", Some (PArr (S (S i))))]; OUpdate o kw].
Definition bi_objb (r : rt1) (b : bool) : rt1 := fst (bi_rec None None (Some (FNum 0%Q)) None (with_flags r b (r_sig0 r) false)).
Definition geo3_objb (r : rt1) (b : bool) (i : nat) : rt1 := with_ang (with_ang (with_ang (bi_objb r b) T0 (PArr i)) TEx (PArr (S i))) PEx (PArr (S (S i))).
Section Ref.
  Context (w : world) (o : nat) (r : rt1) (b : bool) (n : nat) (inc : R) (kw : dict pyval).
  Hypothesis (Hr : obj (w_heap w) o = Ok r) (Hx : forall h, has_kw h kw) (H : hist w o).
  Definition ref3 := fst (run w (by_calls o b (r_sig0 r) n inc kw (length (h_arrs (w_heap w))))).
  Let i := length (h_arrs (w_heap w)).
  Let gk := [("t_0", Some (PArr i)); ("t_ex", Some (PArr (S i))); ("p_ex", Some (PArr (S (S i))))].
  Lemma ref_at : obj (w_heap ref3) o = Ok (upd_rec (geo3_objb r b i) kw) /\ h_arrs (w_heap ref3) = h_arrs (w_heap w) ++ [inc_grid n inc; theta_grid n; phi_grid n] /\
    h_scats (w_heap ref3) = h_scats (w_heap w) /\ h_be (w_heap ref3) = h_be (w_heap w) /\ h_seng (w_heap ref3) = h_seng (w_heap w) /\ hist ref3 o.
  Proof.
    unfold ref3, by_calls. fold i. fold gk. rewrite !run_cons. cbn [run fst].
    set (u1 := fst (step w (OSetFlags o b (r_sig0 r) false))). set (u3 := fst (step u1 (OSetBi o None None (Some (FNum 0%Q)) None))).
    set (u4 := fst (step u3 (ONewArr (inc_grid n inc)))). set (u5 := fst (step u4 (ONewArr (theta_grid n)))). set (u6 := fst (step u5 (ONewArr (phi_grid n)))).
    set (u7 := fst (step u6 (OSetGeometry o gk))).
    assert (X1 : w_heap u1 = hput (w_heap w) o (with_flags r b (r_sig0 r) false)).
    { unfold u1. cbn [step]. unfold as_out, bind, get_obj, gets. rewrite Hr. reflexivity. }
    assert (O1 : obj (w_heap u1) o = Ok (with_flags r b (r_sig0 r) false)) by (rewrite X1; eapply obj_hput_same; exact Hr).
    pose proof (proj1 (eff_bi o None None (Some (FNum 0%Q)) None) u1 _ O1) as [H3 S3].
    assert (X3 : w_heap u3 = hput (w_heap u1) o (bi_objb r b)) by (unfold u3; cbn [step]; rewrite fst_as_out; exact H3).
    assert (O3 : obj (w_heap u3) o = Ok (bi_objb r b)) by (rewrite X3; eapply obj_hput_same; exact O1).
    assert (L3 : h_arrs (w_heap u3) = h_arrs (w_heap w)) by (rewrite X3, X1; reflexivity).
    assert (O6 : obj (w_heap u6) o = Ok (bi_objb r b)) by exact O3.
    assert (A6 : h_arrs (w_heap u6) = h_arrs (w_heap w) ++ [inc_grid n inc; theta_grid n; phi_grid n]).
    { change (h_arrs (w_heap u6)) with (((h_arrs (w_heap u3) ++ [inc_grid n inc]) ++ [theta_grid n]) ++ [phi_grid n]). rewrite L3, <- !app_assoc. reflexivity. }
    pose proof (eff_geo o gk u6 _ O6) as [H7 S7].
    assert (Gr : geo_rec gk (bi_objb r b) = (geo3_objb r b i, Ok tt)).
    { assert (Bm : r_mono (bi_objb r b) = false) by reflexivity. assert (Bf : r_fixed (bi_objb r b) = [P0]) by reflexivity.
      unfold geo3_objb. revert Bm Bf. generalize (bi_objb r b). intros q Bm Bf.
      unfold geo_rec, gk. cbn [ang_kw rmap opt_res option_map angle_of_str String.eqb Ascii.eqb Bool.eqb fst snd rbind].
      rewrite Bm, andb_false_r. cbn [geo_loop]. rewrite Bf. cbn [existsb angle_eqb orb].
      rewrite fixed_ang, Bf. cbn [existsb angle_eqb orb]. rewrite !fixed_ang, Bf. reflexivity. }
    rewrite Gr in H7, S7. cbn [fst snd] in H7, S7.
    assert (X7 : w_heap u7 = hput (w_heap u6) o (geo3_objb r b i)) by (unfold u7; cbn [step]; rewrite fst_as_out; exact H7).
    assert (O7 : obj (w_heap u7) o = Ok (geo3_objb r b i)) by (rewrite X7; eapply obj_hput_same; exact O6).
    rewrite (step_update _ _ _ _ O7). split; [eapply obj_hput_same; exact O7|].
    cbn [hput set_objs h_arrs h_scats h_be h_seng]. 
    split; [rewrite X7; exact A6|].
    split; [rewrite X7; change (h_scats (w_heap u3) = h_scats (w_heap w)); rewrite X3, X1; reflexivity|].
    split; [rewrite X7; change (h_be (w_heap u3) = h_be (w_heap w)); rewrite X3, X1; reflexivity|].
    split; [rewrite X7; change (h_seng (w_heap u3) = h_seng (w_heap w)); rewrite X3, X1; reflexivity|].
    assert (H1 : hist u1 o) by (apply hist_step; auto; try (intros; exact I); try exact (fun x => x); try (eapply mentions_obj; [reflexivity|exact Hr|exact I])).
    assert (H3' : hist u3 o) by (apply hist_step; auto; try (intros; exact I); try exact (fun x => x); try (cbn; repeat split; discriminate); try (eapply mentions_obj; [reflexivity|exact O1|exact I])).
    assert (H4 : hist u4 o) by (apply hist_step; auto; try (intros; exact I); try exact (fun x => x); try (split; [discriminate|exact I])).
    assert (H5 : hist u5 o) by (apply hist_step; auto; try (intros; exact I); try exact (fun x => x); try (split; [discriminate|exact I])).
    assert (H6 : hist u6 o) by (apply hist_step; auto; try (intros; exact I); try exact (fun x => x); try (split; [discriminate|exact I])).
    assert (Hh7 : hist u7 o).
    { apply hist_step; auto; try (intros; exact I); try exact (fun x => x).
      eapply mentions_obj; [reflexivity|exact O6|]. intros k v Hin. assert (L : length (h_arrs (w_heap u6)) = 3 + i) by (rewrite A6, app_length; cbn; unfold i; lia).
      destruct Hin as [E|[E|[E|[]]]]; injection E as <- <-; cbn [has_val]; rewrite L; lia. }
    apply hist_step; auto; try exact I; try exact (fun x => x).
    - eapply mentions_obj; [reflexivity|exact O7|]. apply Hx.
    - intros J N Hin. contradiction.
  Qed.
End Ref.

Lemma wi_keys sl : dkeys (without_inc sl) = filter (fun k => negb (String.eqb k "inc")) (dkeys sl).
Proof. induction sl as [|[k s] sl IH]; [reflexivity|]. unfold without_inc, dkeys in *. cbn [filter map fst]. destruct (String.eqb k "inc"); cbn [negb map fst]; now rewrite IH. Qed.
Lemma move3d_keys es : forall sl, dkeys (move3d sl es) = dkeys sl.
Proof. induction es as [|[k x] es IH]; intros sl; [reflexivity|]. cbn [move3d]. rewrite IH. apply next_sliders_keys. Qed.
Lemma move3d_wi sl es : dkeys (without_inc (move3d sl es)) = dkeys (without_inc sl).
Proof. now rewrite !wi_keys, move3d_keys. Qed.
Lemma dget_keys_some {A} (d : dict A) k : In k (dkeys d) -> exists x, dget d k = Some x.
Proof.
  induction d as [|[k' a] d IH]; intros H; [destruct H|]. cbn [dget]. destruct (String.eqb k k') eqn:E; [eexists; reflexivity|].
  destruct H as [H|H]; [|now apply IH]. cbn in H. subst. rewrite String.eqb_refl in E. discriminate.
Qed.
Lemma m_ang_world o a w : fst (m_ang o a w) = w.
Proof. unfold m_ang, bind, get_obj, gets. destruct (obj (w_heap w) o); reflexivity. Qed.
Lemma points_world o v w : fst (points o v w) = w.
Proof.
  unfold points, bind. pose proof (m_ang_world o TEx w) as E. destruct (m_ang o TEx w) as [w1 [t|e]]; cbn [fst] in E |- *; subst; [|reflexivity].
  pose proof (m_ang_world o PEx w) as E. destruct (m_ang o PEx w) as [w1 [p|e]]; cbn [fst] in E |- *; subst; [|reflexivity]. destruct v; reflexivity.
Qed.
Lemma update3d_world o c us sl s w : dget sl "inc" = Some s -> fst (update3d o c us sl w) = fst (analyze3d_update o c (without_inc sl) (sl_val s) w).
Proof.
  intros E. unfold update3d. rewrite E. unfold bind. destruct (analyze3d_update o c (without_inc sl) (sl_val s) w) as [w1 [v|e]]; [|reflexivity].
  cbn [fst]. pose proof (points_world o v w1) as P. destruct (points o v w1) as [w2 [[[x y] z]|e]]; cbn [fst] in P; subst; reflexivity.
Qed.

Lemma reads3 h l A B C q kw : h_arrs h = l ++ [A; B; C] -> r_mono q = false ->
  r_ang q T0 = Some (PArr (length l)) -> r_ang q TEx = Some (PArr (S (length l))) -> r_ang q PEx = Some (PArr (S (S (length l)))) -> r_ang q P0 = Some (PNum (Fin (Q2R 0))) ->
  shp A <> [] -> shp B <> [] -> shp C <> [] ->
  read_ang h (upd_rec q kw) T0 = Ok A /\ read_ang h (upd_rec q kw) TEx = Ok B /\ read_ang h (upd_rec q kw) PEx = Ok C /\ read_ang h (upd_rec q kw) P0 = Ok (mk_nd [1] (fun _ => Fin (Q2R 0))).
Proof.
  intros Av Mo B1 B2 B3 B4 S1 S2 S3.
  assert (Rd : forall a k D, r_ang q a = Some (PArr k) -> nth_error (h_arrs h) k = Some D -> shp D <> [] -> read_ang h (upd_rec q kw) a = Ok D).
  { intros a k D Ea Ek Es. unfold read_ang, stored_ang. change (r_mono (upd_rec q kw)) with (r_mono q). rewrite Mo, !upd_ang. destruct a; rewrite Ea; cbn [deref rbind]; rewrite Ek; cbn [opt_res rbind]; unfold atleast_1d; destruct (shp D); congruence. }
  assert (Nt : forall m D, nth_error [A; B; C] m = Some D -> nth_error (h_arrs h) (m + length l) = Some D).
  { intros m D E. rewrite Av, nth_error_app2 by lia. replace (m + length l - length l) with m by lia. exact E. }
  split; [apply (Rd _ _ _ B1); [apply (Nt 0); reflexivity|assumption]|].
  split; [apply (Rd _ _ _ B2); [apply (Nt 1); reflexivity|assumption]|].
  split; [apply (Rd _ _ _ B3); [apply (Nt 2); reflexivity|assumption]|].
  unfold read_ang, stored_ang. rewrite upd_ang, B4. reflexivity.
Qed.

Lemma params_total h q : closed h q -> exists d, params_nd h q = Ok d.
Proof.
  intros C. apply (rmap_total (fun kv => let* a := sderef h (snd kv) in Ok (fst kv, a)) (r_params q)).
  intros [k x] Hin. pose proof (cl_par _ _ C _ _ Hin) as Hv. apply has_val_deref in Hv. destruct Hv as (a & Ha).
  destruct x as [x|x]; cbn [sv_val sderef snd fst] in *; rewrite Ha; eexists; reflexivity.
Qed.

Section Shown.
  Context (w : world) (o : nat) (r : rt1) (c : string) (n : nat) (kw : dict (list entry)) (us : list nat) (sl : dict slider).
  Hypothesis (Hr : obj (w_heap w) o = Ok r) (H : hist w o) (Hi : r_fnevals_input r = None) (St : snd (start3d o c n kw w) = Ok (us, sl)).
  Let i := length (h_arrs (w_heap w)).
  Let v := fst (start3d o c n kw w).
  Let N := dkeys (without_inc sl).
  Lemma inc_in : In "inc" (dkeys sl).
  Proof. destruct (start3_state w o r c n kw us sl Hr H St) as (_ & _ & _ & _ & _ & _ & _ & _ & symbs & sl0 & _ & _ & ->). apply In_dkeys_dset. now right. Qed.
  Lemma play3_ov es : forall sl1 w', dkeys sl1 = dkeys sl -> only_values3 o N v w' -> updatable w' o ->
    only_values3 o N v (play3d o c us sl1 es w') /\ updatable (play3d o c us sl1 es w') o.
  Proof.
    destruct (start3_state w o r c n kw us sl Hr H St) as (_ & _ & Ov & _). destruct (start3_grid w o r c n kw us sl Hr H Hi St) as (G1 & G2 & G3 & _ & _ & G6 & G7 & G8 & G9).
    induction es as [|[k x] es IH]; intros sl1 w' K V U; [split; assumption|]. cbn [play3d].
    set (sl2 := next_sliders sl1 (EvSlide k x)). assert (K2 : dkeys sl2 = dkeys sl) by (unfold sl2; rewrite next_sliders_keys; exact K).
    destruct (dget_keys_some sl2 "inc") as [s Es]; [rewrite K2; exact inc_in|].
    destruct (update3 v o N _ _ _ _ _ Ov G1 G6 G7 G8 G2 G3 w' c (without_inc sl2) (sl_val s)) as [V2 U2]; [unfold N; now rewrite !wi_keys, K2|exact V|exact U|].
    apply IH; [exact K2| |]; rewrite (update3d_world _ _ _ _ _ _ Es); assumption.
  Qed.
  Lemma played es : only_values3 o N v (play3d o c us sl es v) /\ updatable (play3d o c us sl es v) o.
  Proof. destruct (start3_grid w o r c n kw us sl Hr H Hi St) as (_ & _ & _ & _ & _ & _ & _ & _ & U). apply play3_ov; [reflexivity|apply ov3_refl|exact U]. Qed.
  Lemma params3 : r_params (r3 w r sl) = dupdate (r_params r) (map (fun kv => (fst kv, S1d (snd kv))) (slider_vals (without_inc sl))).
  Proof.
    pose proof (updatable_bsf _ _ _ (tidy_good _ _ (hist_tidy _ _ H)) Hr) as B. unfold r3, upd_rec. cbn [with_params r_params].
    rewrite (upd_kw_bsf (geo3_obj r (length (h_arrs (w_heap w))))) by exact B. reflexivity.
  Qed.
  (** on any state the widget reaches: the evaluated array is what R.calc() returns after the plain calls *)
  Lemma shown_ref w' sl' inc : dkeys (without_inc sl') = N -> only_values3 o N v w' -> updatable w' o ->
    snd (analyze3d_update o c (without_inc sl') inc w') = op_res (snd (step (ref3 w o r (shows_interaction c) n inc (slider_vals (without_inc sl'))) (OCalc o nil))).
  Proof.
    intros K V U. destruct (start3_state w o r c n kw us sl Hr H St) as (_ & _ & Ov & Av & Scv & Bev & Sev & _).
    destruct (start3_grid w o r c n kw us sl Hr H Hi St) as (G1 & G2 & G3 & _ & G5 & G6 & G7 & G8 & _). fold v in Ov, Av, Scv, Bev, Sev, G2, G3, G5, G6.
    destruct (later_state v o N _ _ _ _ _ Ov G1 G6 G7 G8 G2 G3 c (without_inc sl') inc K w' V U) as (r' & q & P & _ & _ & -> & X).
    apply (f_equal op_res). set (u := w3 w' o r' _ _ _ _ _) in *. clearbody u. cbv zeta in X.
    destruct X as (O1 & B1 & S1 & Sc1 & (x1 & Ar1) & (T1 & N1) & Q1 & Kp1 & Eo1 & F1 & F2 & F3 & F4 & F5 & F6 & F7 & F8 & F9 & F10 & R1 & d1 & D1).
    set (kw' := slider_vals (without_inc sl')) in *.
    assert (Hx : forall h, has_kw h kw') by (intros h; apply slider_vals_exist).
    destruct (ref_at w o r (shows_interaction c) n inc kw' Hr Hx H) as (O2 & A2 & Sc2 & Be2 & Se2 & H2). fold i in O2.
    set (ref := ref3 w o r (shows_interaction c) n inc kw') in *. clearbody ref.
    assert (N2 : names_current ref o) by (apply (up_to_date_current _ _ _ O2); intros k Ek; discriminate Ek).
    apply C12_calc_partial; [exact T1|now apply hist_tidy| |exact N1|exact N2].
    assert (Pq : r_params (upd_rec (geo3_objb r (shows_interaction c) i) kw') = dupdate (r_params r) (map (fun kv => (fst kv, S1d (snd kv))) kw')).
    { pose proof (updatable_bsf _ _ _ (tidy_good _ _ (hist_tidy _ _ H)) Hr) as B. unfold upd_rec. cbn [with_params r_params].
      rewrite (upd_kw_bsf (geo3_objb r (shows_interaction c) i)) by exact B. reflexivity. }
    pose proof (hist_closed _ _ H2) as C2. pose proof (C2 _ _ O2) as Cl2. pose proof (hist_closed _ _ H _ _ Hr) as Cl.
    assert (DR : forall x, has_val (w_heap w) x -> deref (w_heap u) x = deref (w_heap ref) x).
    { intros x Hv. assert (Ar : h_arrs (w_heap u) = h_arrs (w_heap w) ++ ([mesh_t0 n; mesh_tex n; mesh_pex n] ++ x1)) by (rewrite Ar1, Av, <- app_assoc; reflexivity).
      rewrite (deref_ext _ _ _ _ Ar Hv), (deref_ext _ _ _ _ A2 Hv). reflexivity. }
    exists q, (upd_rec (geo3_objb r (shows_interaction c) i) kw').
    split; [exact O1|]. split; [exact O2|]. split; [rewrite B1, Bev, Be2; reflexivity|]. split; [rewrite S1, Sev, Se2; reflexivity|].
    assert (Sc : forall x, scat_at (w_heap u) x = scat_at (w_heap ref) x) by (intros x; unfold scat_at; rewrite Sc1, Scv, Sc2; reflexivity).
    rewrite F1, F2, F3, F4, F5, F6, F8, F9, F10.
    split; [apply Sc|]. split; [apply Sc|]. do 4 (split; [reflexivity|]). split; [exact F7|]. split; [exact Hi|].
    split; [apply DR; apply Cl|].
    split.
    { intros y. change (r_def (upd_rec (geo3_objb r (shows_interaction c) i) kw') y) with (r_def r y). change (r_def (r3 w r sl) y) with (r_def r y).
      destruct (r_def r y) as [e|e|x] eqn:Ed; try reflexivity. cbn [cdef_of]. rewrite (DR x (cl_def _ _ Cl _ _ Ed)). reflexivity. }
    split; [reflexivity|]. split.
    { intros a. rewrite (read_angle_out _ _ _ _ O1), (read_angle_out _ _ _ _ O2). rewrite R1.
      destruct (reads3 (w_heap ref) (h_arrs (w_heap w)) (inc_grid n inc) (theta_grid n) (phi_grid n) (geo3_objb r (shows_interaction c) i) kw' A2) as (J1 & J2 & J3 & J4);
        [reflexivity|reflexivity|reflexivity|reflexivity|reflexivity|discriminate|discriminate|discriminate|].
      rewrite full_grid. destruct a; [rewrite J1|rewrite J2, G2, mesh_tex_grid|rewrite J4, G5|rewrite J3, G3, mesh_pex_grid]; reflexivity. }
    destruct (params_total _ _ Cl2) as (d2 & D2).
    exists d1, d2.
    split; [cbn [step]; rewrite snd_as_out; unfold gets; cbn [snd]; rewrite O1; cbn [rbind]; now rewrite D1|].
    split; [cbn [step]; rewrite snd_as_out; unfold gets; cbn [snd]; rewrite O2; cbn [rbind]; now rewrite D2|].
    intros s. rewrite (PlotFacts.params_nd_get _ _ _ s D1), (PlotFacts.params_nd_get _ _ _ s D2), Q1, Pq.
    destruct (in_dec string_dec s N) as [j|j].
    - destruct (dget_same_kw _ _ _ _ s (same_slider_vals (w_heap u) (w_heap ref) (without_inc sl')) ltac:(rewrite slider_vals_keys, K; exact j) P (r_params r)) as (v1 & v2 & E1 & E2 & Ev).
      unfold kw'. rewrite E1, E2. cbn [sderef]. rewrite Ev. reflexivity.
    - unfold kw'. rewrite !dget_dupdate_out by (rewrite dkeys_map, slider_vals_keys, K; exact j). rewrite (Eo1 s j).
      rewrite params3, dget_dupdate_out by (rewrite dkeys_map, slider_vals_keys; exact j).
      destruct (dget (r_params r) s) as [x|] eqn:Ev; [|reflexivity]. apply dget_dict_In in Ev. pose proof (cl_par _ _ Cl _ _ Ev) as Hv.
      destruct x as [x|x]; cbn [sv_val sderef] in *; rewrite (DR x Hv); reflexivity.
  Qed.
End Shown.
