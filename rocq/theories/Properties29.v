(** C79 - C81: starting the Analyze widget. *)
From Verif Require Import Stale.
From Verif Require Export PlotInit Properties17 Properties21.
Open Scope string_scope. Open Scope nat_scope. Open Scope list_scope.

(** ** Specification *)
(** a state reached by calls on the package *)
Definition reached (w : world) : Prop := exists seng ps, adm [] (init seng true) ps /\ w = fst (run (init seng true) ps).
(** the symbol [s] is needed to evaluate R: it appears in the definition of a parameter or in a phase function, and is
    not one of the angles *)
Definition needed (w : world) (o : nat) (s : string) : Prop :=
  ~ In s ["theta_0"; "theta_ex"; "phi_0"; "phi_ex"] /\ ((exists p, def_uses w o p s) \/ (exists x, fun_uses w o x s)).
(** R is an object with functions and readable parameters *)
Definition readable (w : world) (o : nat) (d : dict (nd xr)) : Prop :=
  snd (step w (OParamDict o)) = RetDict d /\ (exists v, obs_fun w o WV v) /\ (exists s, obs_fun w o WSRF s).

(** the incidence angles of the plot: [n] = 100 values from 10 to 80 degrees, as a row *)
Definition plot_angles (a : nd xr) : Prop :=
  shp a = [100; 1] /\ forall k, k < 100 -> get a [k; 0] = Fin (PI / 18 + INR k / 99 * (7 * PI / 18))%R.

(** ** The check *)
Definition p_used (C : config) : res (list string) :=
  let* v := c_V C in let* s := c_SRF C in
  Ok (dedup (dedup_diff (p_all_symbs C ++ free_syms (phase_function v) ++ free_syms (phase_function s)) angle_names ++ [])).
Definition p_check (C : config) (given : list string) : res (list string) :=
  let* symbs := p_used C in
  match filter (fun s => negb (mem s (dkeys (c_params C)))) (filter (fun s => negb (mem s given)) symbs) with
  | [] => Ok symbs
  | _ => Err AssertionError
  end.
Definition p_result (C : config) (given fs : list string) : res (list string) :=
  let symbs := dedup (dedup_diff (p_all_symbs C ++ fs) angle_names ++ []) in
  match filter (fun s => negb (mem s (dkeys (c_params C)))) (filter (fun s => negb (mem s given)) symbs) with
  | [] => Ok symbs
  | _ => Err AssertionError
  end.
Lemma at_check h0 C fe o given : pure_at h0 C fe o (check_params o given []) (p_check C given).
Proof.
  unfold check_params.
  eapply at_ext with (x := let* _ := Ok (p_all_symbs C) in
    let* fs := (let* v := c_V C in let* s := c_SRF C in Ok (free_syms (phase_function v) ++ free_syms (phase_function s))) in p_result C given fs).
  { apply at_bind; [apply at_all_symbs|]. intros ss Es. injection Es as <-.
    apply at_get. intros r Hc _. apply at_bind.
    - eapply at_pure; [apply pureU_gets|]. intros l r' _ _. subst C. reflexivity.
    - intros fs _. unfold p_result. cbv zeta. rewrite <- (keys_conf h0 C r Hc). destruct (filter (fun s => negb (mem s given)) _) as [|a l] eqn:E; [apply at_ret|].
      destruct (filter _ (a :: l)); [apply at_ret|apply at_fail]. }
  unfold p_check, p_used, p_result. cbn [rbind]. destruct (c_V C); [|reflexivity]. destruct (c_SRF C); reflexivity.
Qed.
Lemma sim_check J o given add : simM J (check_params o given add).
Proof.
  unfold check_params. apply sim_bind; [apply sim_all_param_symbs|]. intros ss. apply sim_bind; [apply sim_get_obj|]. intros r.
  apply sim_bind; [apply sim_gets|]. intros fs. cbv zeta. destruct (filter _ _); [apply sim_ret|]. destruct (filter _ _); [apply sim_ret|apply sim_fail].
Qed.

(** ** States *)
Lemma reached_step w p : reached w -> (forall J, adm1 J (w_heap w) p) -> reached (fst (step w p)).
Proof.
  intros (seng & ps & A & ->) H. exists seng, (ps ++ [p]). split; [|now rewrite run_snoc].
  apply adm_app. split; [assumption|]. cbn [adm]. split; [apply H|exact I].
Qed.
Lemma reached_sim w : reached w -> exists J, Sim J w (bare (w_heap w)) /\ HB (w_heap w).
Proof.
  intros (seng & ps & A & ->). destruct (run_Sim ps [] _ _ (Sim_init seng) (HB_init seng) A) as [S B].
  eexists. split; [eapply Sim_bare; exact S|exact B].
Qed.
(** what the check returns or raises; it changes nothing of the object *)
Lemma check_at w o r given : reached w -> obj (w_heap w) o = Ok r ->
  snd (check_params o given [] w) = p_check (conf (w_heap w) r) given /\
  exists r', w_heap (fst (check_params o given [] w)) = hput (w_heap w) o r' /\ strip r' = strip r.
Proof.
  intros G Hr. destruct (reached_sim w G) as (J & S & _). destruct (sim_check J o given [] _ _ S) as [E S'].
  destruct (at_check (w_heap w) (conf (w_heap w) r) (fnev_next (w_heap w) r) o given (h_objs (w_heap w)) (fun _ => []) r) as (r' & E' & Hs & _); auto.
  { now apply obj_nth. }
  assert (Eb : bare (w_heap w) = mk_world (set_objs (w_heap w) (h_objs (w_heap w))) false (fun _ => [])) by (destruct (w_heap w); reflexivity).
  rewrite Eb in E, S'. rewrite E' in E, S'. split; [exact E|]. exists r'. split; [|exact Hs].
  destruct S' as (_ & _ & X & _). rewrite X. reflexivity.
Qed.

(** the object after the geometry has been set *)
Definition geo_obj (r : rt1) (i : nat) : rt1 := with_ang (fst (mono_rec (Some (FNum 0%Q)) r)) T0 (PArr i).
Lemma analyze_geometry_at w o r : obj (w_heap w) o = Ok r -> exists i,
  snd (analyze_geometry o w) = Ok tt /\ fst (analyze_geometry o w) =
    fst (step (fst (step (fst (step w (OSetMono o (Some (FNum 0%Q))))) (ONewArr inc_angles))) (OSetGeometry o [("t_0", Some (PArr i))])) /\
  obj (w_heap (fst (analyze_geometry o w))) o = Ok (geo_obj r i) /\
  nth_error (h_arrs (w_heap (fst (analyze_geometry o w)))) i = Some inc_angles /\
  (exists ext, h_arrs (w_heap (fst (analyze_geometry o w))) = h_arrs (w_heap w) ++ ext) /\
  h_scats (w_heap (fst (analyze_geometry o w))) = h_scats (w_heap w) /\
  (forall o', o' <> o -> obj (w_heap (fst (analyze_geometry o w))) o' = obj (w_heap w) o').
Proof.
  intros Hr. unfold analyze_geometry.
  pose proof (proj1 (eff_mono o (Some (FNum 0%Q))) w r Hr) as [H1 S1].
  set (w1 := fst (step w (OSetMono o (Some (FNum 0%Q))))).
  assert (X1 : w_heap w1 = hput (w_heap w) o (fst (mono_rec (Some (FNum 0%Q)) r))) by (unfold w1; cbn [step]; rewrite fst_as_out; exact H1).
  assert (Y1 : step w (OSetMono o (Some (FNum 0%Q))) = (w1, RetNone)).
  { unfold w1. cbn [step]. unfold as_out. destruct (set_monostatic o (Some (FNum 0%Q)) w) as [u x]. cbn [snd fst] in *. rewrite S1. reflexivity. }
  assert (O1 : obj (w_heap w1) o = Ok (fst (mono_rec (Some (FNum 0%Q)) r))) by (rewrite X1; eapply obj_hput_same; eassumption).
  set (i := length (h_arrs (w_heap w1))).
  set (w2 := fst (step w1 (ONewArr inc_angles))).
  assert (Y2 : add_arr inc_angles w1 = (w2, Ok i)) by reflexivity.
  assert (O2 : obj (w_heap w2) o = Ok (fst (mono_rec (Some (FNum 0%Q)) r))) by exact O1.
  set (w3 := fst (step w2 (OSetGeometry o [("t_0", Some (PArr i))]))).
  pose proof (eff_geo o [("t_0", Some (PArr i))] w2 _ O2) as [H3 S3].
  assert (Gr : geo_rec [("t_0", Some (PArr i))] (fst (mono_rec (Some (FNum 0%Q)) r)) = (geo_obj r i, Ok tt)) by reflexivity.
  rewrite Gr in H3, S3. cbn [fst snd] in H3, S3.
  assert (X3 : w_heap w3 = hput (w_heap w2) o (geo_obj r i)) by (unfold w3; cbn [step]; rewrite fst_as_out; exact H3).
  assert (Y3 : step w2 (OSetGeometry o [("t_0", Some (PArr i))]) = (w3, RetNone)).
  { unfold w3. cbn [step]. unfold as_out. destruct (set_geometry o [("t_0", Some (PArr i))] w2) as [u x]. cbn [snd fst] in *. rewrite S3. reflexivity. }
  exists i.
  assert (E : (call_op (OSetMono o (Some (FNum 0%Q))) ;;; (do i <- add_arr inc_angles ;; call_op (OSetGeometry o [("t_0", Some (PArr i))]) ;;; ret tt)) w = (w3, Ok tt)).
  { unfold bind at 1. unfold call_op at 1. rewrite Y1. unfold bind at 1. rewrite Y2. unfold bind. unfold call_op. rewrite Y3. reflexivity. }
  rewrite E. cbn [fst snd]. fold w1 w2 w3.
  split; [reflexivity|]. split; [reflexivity|]. split; [rewrite X3; eapply obj_hput_same; eassumption|].
  assert (A3 : h_arrs (w_heap w3) = h_arrs (w_heap w1) ++ [inc_angles]) by (rewrite X3; reflexivity).
  split; [rewrite A3; rewrite nth_error_app2 by (unfold i; lia); unfold i; rewrite Nat.sub_diag; reflexivity|].
  split; [exists [inc_angles]; rewrite A3, X1; reflexivity|]. split; [rewrite X3; change (h_scats (w_heap w1) = h_scats (w_heap w)); rewrite X1; reflexivity|].
  intros o' N. rewrite X3, obj_hput_other by congruence. change (obj (w_heap w1) o' = obj (w_heap w) o'). rewrite X1. apply obj_hput_other. congruence.
Qed.

(** ** The check and the observations *)
Lemma readable_rec w o d : readable w o d -> exists r v s, obj (w_heap w) o = Ok r /\ scat_at (w_heap w) (r_V r) = Ok v /\ scat_at (w_heap w) (r_SRF r) = Ok s /\
  dkeys d = dkeys (r_params r) /\ params_nd (w_heap w) r = Ok d.
Proof.
  intros (D & (v & r & Hr & Hv) & (s & r' & Hr' & Hs)). assert (r' = r) by congruence. subst r'. exists r, v, s. cbn [scat_id] in *.
  split; [assumption|]. split; [assumption|]. split; [assumption|].
  cbn [step] in D. unfold as_out, gets in D. rewrite Hr in D. cbn [rbind snd] in D.
  destruct (params_nd (w_heap w) r) as [d'|] eqn:E; [|discriminate]. cbn [snd] in D. injection D as <-. split; [|reflexivity].
  unfold params_nd in E. clear -E. revert d' E. induction (r_params r) as [|[k x] l IH]; intros d' E; [now injection E as <-|].
  cbn [rmap fst snd] in E. destruct (sderef (w_heap w) x); [cbn [rbind] in E|discriminate]. destruct (rmap _ l) as [l'|]; [cbn [rbind] in E|discriminate].
  injection E as <-. cbn. f_equal. now apply IH.
Qed.
Lemma needed_rec w o r v s x : obj (w_heap w) o = Ok r -> scat_at (w_heap w) (r_V r) = Ok v -> scat_at (w_heap w) (r_SRF r) = Ok s ->
  needed w o x <-> ~ In x angle_names /\ ((exists p e, r_def r p = DStr e /\ In x (syms e)) \/ In x (syms (phase_function v)) \/ In x (syms (phase_function s))).
Proof.
  intros Hr Hv Hs. unfold needed. split; intros [N U]; (split; [exact N|]).
  - destruct U as [(p & r' & e & Hr' & D & I)|(y & sc & (r' & Hr' & Hsc) & I)]; assert (r' = r) by congruence; subst r'.
    + left. eauto.
    + right. destruct y; cbn [scat_id] in Hsc; [left|right]; congruence.
  - destruct U as [(p & e & D & I)|[I|I]].
    + left. exists p, r, e. auto.
    + right. exists WV, v. split; [exists r; auto|exact I].
    + right. exists WSRF, s. split; [exists r; auto|exact I].
Qed.
Lemma p_used_in C v s : c_V C = Ok v -> c_SRF C = Ok s -> exists l, p_used C = Ok l /\
  forall x, In x l <-> ~ In x angle_names /\ ((exists p e, c_def C p = CStr e /\ In x (syms e)) \/ In x (syms (phase_function v)) \/ In x (syms (phase_function s))).
Proof.
  intros Ev Es. unfold p_used. rewrite Ev, Es. cbn [rbind]. eexists. split; [reflexivity|]. intros x.
  rewrite In_dedup, app_nil_r. unfold dedup_diff. rewrite filter_In, In_dedup, negb_true_iff, !in_app_iff. unfold free_syms. rewrite !In_dedup.
  assert (A : In x (p_all_symbs C) <-> exists p e, c_def C p = CStr e /\ In x (syms e)).
  { unfold p_all_symbs. rewrite !in_app_iff. assert (K : forall p, In x (p_symbs C p) <-> exists e, c_def C p = CStr e /\ In x (syms e)).
    { intros p. unfold p_symbs. split.
      - destruct (c_def C p) as [e|e|]; try (intros []). intros H. exists e. split; [reflexivity|now apply In_dedup].
      - intros (e & -> & H). now apply In_dedup. }
    rewrite !K. split; [intros [H|[H|[H|H]]]; eauto|]. intros ([] & H); tauto. }
  rewrite A, mem_not_In. tauto.
Qed.
Lemma geo_conf h h1 r i v s : scat_at h (r_V r) = Ok v -> scat_at h (r_SRF r) = Ok s -> h_scats h1 = h_scats h ->
  let C := conf h1 (geo_obj r i) in c_V C = Ok v /\ c_SRF C = Ok s /\ dkeys (c_params C) = dkeys (r_params r) /\
  forall p e, c_def C p = CStr e <-> r_def r p = DStr e.
Proof.
  intros Hv Hs E C.
  assert (X : forall n, scat_at h1 n = scat_at h n) by (intros n; unfold scat_at; now rewrite E).
  split; [unfold C, conf; cbn [c_V]; change (r_V (geo_obj r i)) with (r_V r); now rewrite X|].
  split; [unfold C, conf; cbn [c_SRF]; change (r_SRF (geo_obj r i)) with (r_SRF r); now rewrite X|].
  split; [unfold C, conf; cbn [c_params]; change (r_params (geo_obj r i)) with (r_params r); apply dkeys_map|].
  intros p e. unfold C, conf. cbn [c_def]. change (r_def (geo_obj r i)) with (r_def r). destruct (r_def r p); cbn [cdef_of]; split; congruence.
Qed.
(** the outcome up to the sliders, in terms of the state before *)
Lemma sliders_at w o kw d : reached w -> readable w o d -> exists used,
  (forall k, used k = true <-> needed w o k) /\
  ((exists s, needed w o s /\ ~ In s (dkeys kw) /\ dget d s = None) -> snd (analyze_sliders o kw w) = Err AssertionError) /\
  ((forall s, needed w o s -> In s (dkeys kw) \/ dget d s <> None) ->
     snd (analyze_sliders o kw w) = init_sliders (filter (fun kv => used (fst kv)) kw)) /\
  exists i r r', obj (w_heap w) o = Ok r /\ strip r' = strip (geo_obj r i) /\ obj (w_heap (fst (analyze_sliders o kw w))) o = Ok r' /\
    nth_error (h_arrs (w_heap (fst (analyze_sliders o kw w)))) i = Some inc_angles /\
    (exists ext, h_arrs (w_heap (fst (analyze_sliders o kw w))) = h_arrs (w_heap w) ++ ext) /\
    h_scats (w_heap (fst (analyze_sliders o kw w))) = h_scats (w_heap w) /\
    (forall o', o' <> o -> obj (w_heap (fst (analyze_sliders o kw w))) o' = obj (w_heap w) o').
Proof.
  intros G Rd. destruct (readable_rec w o d Rd) as (r & v & s & Hr & Hv & Hs & Kd & _).
  destruct (analyze_geometry_at w o r Hr) as (i & S1 & E1 & O1 & A1 & Ex & Sc & Oth).
  set (w1 := fst (analyze_geometry o w)) in *.
  assert (G1 : reached w1).
  { rewrite E1. apply reached_step; [apply reached_step; [apply reached_step; [exact G|]|]|]; intros; exact I. }
  destruct (geo_conf (w_heap w) (w_heap w1) r i v s Hv Hs Sc) as (CV & CS & CK & CD). cbv zeta in *. set (C := conf (w_heap w1) (geo_obj r i)) in *.
  destruct (check_at w1 o _ (dkeys kw) G1 O1) as [Sx (r' & Hh & Hst)]. fold C in Sx.
  destruct (p_used_in C v s CV CS) as (l & El & Il).
  assert (Nd : forall x, In x l <-> needed w o x).
  { intros x. rewrite Il, (needed_rec w o r v s x Hr Hv Hs). split; intros [N U]; (split; [exact N|]); destruct U as [(p & e & D & I)|U]; auto; left; exists p, e; (split; [now apply CD|exact I]). }
  assert (W : w_heap (fst (analyze_sliders o kw w)) = hput (w_heap w1) o r').
  { unfold analyze_sliders, bind at 1. destruct (analyze_geometry o w) as [u x] eqn:Eg. cbn [fst snd] in *. subst x. unfold w1 in *.
    unfold bind. destruct (check_params o (dkeys kw) [] u) as [u' [symbs|e]]; cbn [fst snd] in *; exact Hh. }
  assert (Y : snd (analyze_sliders o kw w) = let* symbs := p_check C (dkeys kw) in init_sliders (filter (fun kv => mem (fst kv) symbs) kw)).
  { unfold analyze_sliders, bind at 1. destruct (analyze_geometry o w) as [u x] eqn:Eg. cbn [fst snd] in *. subst x. unfold w1 in *.
    unfold bind. rewrite <- Sx. destruct (check_params o (dkeys kw) [] u) as [u' [symbs|e]]; reflexivity. }
  exists (fun k => mem k l). split; [intros k; rewrite <- Nd; apply mem_In|]. unfold p_check in Y. rewrite El in Y. cbn [rbind] in Y.
  split; [|split].
  - intros (x & Nx & Nk & Nv). rewrite Y.
    assert (In x (filter (fun s0 => negb (mem s0 (dkeys (c_params C)))) (filter (fun s0 => negb (mem s0 (dkeys kw))) l))) as Ix.
    { apply filter_In. split; [apply filter_In; split; [now apply Nd|]|]; apply negb_true_iff, mem_not_In; [exact Nk|]. rewrite CK, <- Kd. now apply dget_None_notin. }
    destruct (filter _ (filter _ l)); [contradiction|reflexivity].
  - intros Hall. rewrite Y.
    assert (filter (fun s0 => negb (mem s0 (dkeys (c_params C)))) (filter (fun s0 => negb (mem s0 (dkeys kw))) l) = []) as ->; [|reflexivity].
    destruct (filter (fun s0 => negb (mem s0 (dkeys (c_params C)))) (filter (fun s0 => negb (mem s0 (dkeys kw))) l)) as [|x t] eqn:F; [reflexivity|exfalso].
    assert (Ix : In x (x :: t)) by (now left). rewrite <- F in Ix. apply filter_In in Ix. destruct Ix as [Ix N2]. apply filter_In in Ix. destruct Ix as [Ix N1].
    apply negb_true_iff, mem_not_In in N1. apply negb_true_iff, mem_not_In in N2. rewrite CK, <- Kd in N2.
    destruct (Hall x (proj1 (Nd x) Ix)) as [H|H]; [contradiction|]. apply H. now apply dget_None_notin.
  - exists i, r, r'. rewrite W. split; [exact Hr|]. split; [exact Hst|]. split; [eapply obj_hput_same; exact O1|].
    split; [exact A1|]. split; [exact Ex|]. split; [exact Sc|]. intros o' N. rewrite obj_hput_other by congruence. now apply Oth.
Qed.

(** *** C79.  Analyze(R, **parameters) raises AssertionError if a needed parameter is neither given nor stored in R;
    otherwise it shows the sliders of exactly the given parameters that are needed, in the given order. *)
Theorem C79_missing : forall w o kw d s,
  reached w -> readable w o d -> needed w o s -> ~ In s (dkeys kw) -> dget d s = None ->
  snd (analyze_sliders o kw w) = Err AssertionError.
Proof. intros w o kw d s G Rd N K V. destruct (sliders_at w o kw d G Rd) as (_ & _ & H & _). apply H. eauto. Qed.
Print Assumptions C79_missing.
Theorem C79_shown : forall w o kw d,
  reached w -> readable w o d -> (forall s, needed w o s -> In s (dkeys kw) \/ dget d s <> None) ->
  exists used, (forall k, used k = true <-> needed w o k) /\
    snd (analyze_sliders o kw w) = init_sliders (filter (fun kv => used (fst kv)) kw).
Proof. intros w o kw d G Rd H. destruct (sliders_at w o kw d G Rd) as (used & U & _ & X & _). exists used. split; [exact U|now apply X]. Qed.
Print Assumptions C79_shown.
Definition hist29 : list op :=
  [ ONewScat (VHG (ESym "t") (Some 2) a_vol); ONewScat (SIso a_srf);
    ONew (Some 0) (Some 1) true false false None None (PNum (Fin 1));
    OSetBi 0 None None None None;
    OSetGeometry 0 [("t_0", Some (PNum (Fin 1))); ("p_0", Some (PNum (Fin 0))); ("t_ex", Some (PNum (Fin 1))); ("p_ex", Some (PNum (Fin 0)))];
    OUpdate 0 [("tau", PNum (Fin 1)); ("omega", PNum (Fin 1)); ("NormBRDF", PNum (Fin 1))] ].
Definition w29 : world := fst (run (init true true) hist29).
Lemma w29_reached : reached w29.
Proof. exists true, hist29. split; [|reflexivity]. cbn [adm hist29]. repeat (split; [try exact I; try (intros [])|]). exact I. Qed.
Lemma w29_rec : exists r, obj (w_heap w29) 0 = Ok r /\ scat_at (w_heap w29) (r_V r) = Ok (VHG (ESym "t") (Some 2) a_vol) /\
  scat_at (w_heap w29) (r_SRF r) = Ok (SIso a_srf) /\
  forall p, r_def r p = DStr (ESym match p with Tau => "tau" | Omega => "omega" | NormBRDF => "NormBRDF" | Bsf => "bsf" end).
Proof. eexists. split; [vm_compute; reflexivity|]. split; [vm_compute; reflexivity|]. split; [vm_compute; reflexivity|]. intros []; vm_compute; reflexivity. Qed.
Lemma w29_needed : forall s, needed w29 0 s <-> In s ["tau"; "omega"; "NormBRDF"; "bsf"; "t"].
Proof.
  intros s. destruct w29_rec as (r & Er & Ev & Es & D0).
  rewrite (needed_rec w29 0 r (VHG (ESym "t") (Some 2) a_vol) (SIso a_srf) s Er Ev Es).
  assert (A : forall e, In s (syms (phase_function e)) -> In s (free_syms (phase_function e))) by (intros; now apply In_dedup).
  split.
  - intros (N & [(p & e & D & I)|[I|I]]).
    + rewrite D0 in D. injection D as <-. destruct p; cbn in I; destruct I as [<-|[]]; cbn; tauto.
    + apply A in I. vm_compute in I. cbn in N |- *. repeat (destruct I as [I|I]; [subst s; tauto|]). destruct I.
    + apply A in I. vm_compute in I. cbn in N |- *. repeat (destruct I as [I|I]; [subst s; tauto|]). destruct I.
  - intros H. split; [clear - H; cbn in *; intros X; destruct H as [<-|[<-|[<-|[<-|[<-|[]]]]]]; destruct X as [X|[X|[X|[X|[]]]]]; discriminate X|].
    destruct H as [<-|[<-|[<-|[<-|[<-|[]]]]]].
    + left. exists Tau, (ESym "tau"). rewrite D0. cbn. auto.
    + left. exists Omega, (ESym "omega"). rewrite D0. cbn. auto.
    + left. exists NormBRDF, (ESym "NormBRDF"). rewrite D0. cbn. auto.
    + left. exists Bsf, (ESym "bsf"). rewrite D0. cbn. auto.
    + right. left. vm_compute. tauto.
Qed.
(** [t] is missing; [tau] is shown, [x] is not *)
Example C79_nonvacuous : exists d, reached w29 /\ readable w29 0 d /\ needed w29 0 "t" /\ dget d "t" = None /\
  snd (analyze_sliders 0 [] w29) = Err AssertionError /\
  forall used, (forall k, used k = true <-> needed w29 0 k) ->
    map fst (filter (fun kv : string * list entry => used (fst kv)) [("tau", [ENumb 0; ENumb 1]); ("x", [ENumb 0; ENumb 1]); ("t", [ENumb 0; ENumb 1])]) = ["tau"; "t"].
Proof.
  assert (Rd : exists d, readable w29 0 d /\ dget d "t" = None).
  { destruct w29_rec as (r & Er & Ev & Es & _). eexists. split; [split; [vm_compute; reflexivity|]|reflexivity].
    split; eexists; exists r; split; try exact Er; [exact Ev|exact Es]. }
  destruct Rd as (d & Rd & Nd). exists d. split; [apply w29_reached|]. split; [exact Rd|]. assert (Nt : needed w29 0 "t") by (apply w29_needed; cbn; tauto).
  split; [exact Nt|]. split; [exact Nd|]. split; [apply (C79_missing w29 0 [] d "t"); auto using w29_reached|].
  intros used U. cbn [filter fst]. assert (T : used "tau" = true) by (apply U, w29_needed; cbn; tauto). assert (T' : used "t" = true) by (now apply U).
  assert (X : used "x" = false). { destruct (used "x") eqn:E; [|reflexivity]. apply U, w29_needed in E. cbn in E. exfalso. repeat (destruct E as [E|E]; [discriminate E|]). exact E. }
  rewrite T, T', X. reflexivity.
Qed.

(** *** C80.  Intended: a call of Analyze that is rejected leaves R as it was. *)
Definition C80_intended : Prop := forall w o kw d e,
  reached w -> readable w o d -> snd (analyze_sliders o kw w) = Err e ->
  let w' := fst (analyze_sliders o kw w) in
  snd (step w' (OParamDict o)) = RetDict d /\
  forall a, snd (step w' (OReadAngle o a)) = snd (step w (OReadAngle o a)).
(** the geometry is replaced before the parameters are checked *)
Theorem C80_refuted : ~ C80_intended.
Proof.
  intros Q. destruct C79_nonvacuous as (d & G & Rd & _ & _ & E & _). destruct (Q w29 0 [] d AssertionError G Rd E) as [_ A].
  assert (X : match snd (step (fst (analyze_sliders 0 [] w29)) (OReadAngle 0 TEx)) with RetArr a => shp a | _ => [] end = [100; 1]) by (vm_compute; reflexivity).
  assert (Y : match snd (step w29 (OReadAngle 0 TEx)) with RetArr a => shp a | _ => [] end = [1]) by (vm_compute; reflexivity).
  rewrite (A TEx), Y in X. discriminate X.
Qed.
Print Assumptions C80_refuted.
Lemma dict_same w w' o r r' ext : obj (w_heap w) o = Ok r -> obj (w_heap w') o = Ok r' -> r_params r' = r_params r ->
  h_arrs (w_heap w') = h_arrs (w_heap w) ++ ext -> forall d, snd (step w (OParamDict o)) = RetDict d -> snd (step w' (OParamDict o)) = RetDict d.
Proof.
  intros Hr Hr' P A d. cbn [step]. unfold as_out, gets. rewrite Hr, Hr'. cbn [rbind]. unfold params_nd. rewrite P.
  assert (E : forall l x, rmap (fun kv : string * sval => let* a := sderef (w_heap w) (snd kv) in Ok (fst kv, a)) l = Ok x ->
    rmap (fun kv : string * sval => let* a := sderef (w_heap w') (snd kv) in Ok (fst kv, a)) l = Ok x).
  { induction l as [|[k y] l IH]; intros x H; [exact H|]. cbn [rmap fst snd] in *. destruct (sderef (w_heap w) y) as [a|] eqn:E; [cbn [rbind] in H|discriminate].
    destruct (rmap _ l) as [z|]; [cbn [rbind] in H|discriminate]. rewrite (IH _ eq_refl).
    assert (sderef (w_heap w') y = Ok a) as ->; [|exact H].
    assert (D : forall u b, deref (w_heap w) u = Ok b -> deref (w_heap w') u = Ok b).
    { intros [u|u] b; cbn [deref]; [auto|]. rewrite A. destruct (nth_error (h_arrs (w_heap w)) u) as [c|] eqn:N; [|discriminate]. rewrite (nth_error_app_l _ ext _ _ N). auto. }
    destruct y as [u|u]; cbn [sderef] in *; [now apply D|]. destruct (deref (w_heap w) u) as [b|] eqn:B; [|discriminate]. now rewrite (D _ _ B). }
  destruct (rmap _ (r_params r)) as [x|] eqn:X; [|discriminate]. rewrite (E _ _ X). auto.
Qed.
(** what is kept, whether or not the call is rejected: the parameters, the functions, the flags, and all other objects *)
Theorem C80_partial : forall w o kw d,
  reached w -> readable w o d ->
  let w' := fst (analyze_sliders o kw w) in
  snd (step w' (OParamDict o)) = RetDict d /\
  (forall x s, obs_fun w o x s -> obs_fun w' o x s) /\
  (forall iq sg db, obs_flags w o iq sg db -> obs_flags w' o iq sg db) /\
  (forall o', o' <> o -> obj (w_heap w') o' = obj (w_heap w) o').
Proof.
  intros w o kw d G Rd w'. destruct (sliders_at w o kw d G Rd) as (_ & _ & _ & _ & i & r & r' & Hr & St & Hr' & _ & (ext & Ex) & Sc & Oth). fold w' in Hr', Ex, Sc, Oth.
  destruct (strip_fields _ _ St) as (F1 & F2 & F3 & F4 & F5 & F6 & F7 & F8 & F9).
  assert (P : r_params r' = r_params r) by (injection St; intros; assumption).
  assert (V : r_V r' = r_V r /\ r_SRF r' = r_SRF r) by (injection St; intros; split; assumption).
  assert (Fl : r_intQ r' = r_intQ r /\ r_sig0 r' = r_sig0 r /\ r_dB r' = r_dB r) by (injection St; intros; repeat split; assumption).
  split; [exact (dict_same w w' o r r' ext Hr Hr' P Ex d (proj1 Rd))|]. split; [|split; [|exact Oth]].
  - intros x s (r0 & H0 & Hs). assert (r0 = r) by congruence. subst r0. exists r'. split; [exact Hr'|]. destruct V as [V1 V2].
    unfold scat_at. rewrite Sc. destruct x; cbn [scat_id] in *; rewrite ?V1, ?V2; exact Hs.
  - intros iq sg db (r0 & H0 & A & B & D). assert (r0 = r) by congruence. subst r0. exists r'. destruct Fl as (X & Y & Z). repeat split; congruence.
Qed.
Print Assumptions C80_partial.
Example C80_nonvacuous : exists d, reached w29 /\ readable w29 0 d /\ snd (analyze_sliders 0 [] w29) = Err AssertionError.
Proof. destruct C79_nonvacuous as (d & G & Rd & _ & _ & E & _). eauto. Qed.

(** *** C81.  When the widget is ready to compute its first lines, R is monostatic with p_0 = 0 and incidence angles from
    10 to 80 degrees, R.param_dict is the old one overlaid by the slider values, and no needed parameter is missing. *)
Lemma dkeys_vals sl : dkeys (slider_vals sl) = dkeys sl.
Proof. unfold slider_vals, dkeys. rewrite map_map. reflexivity. Qed.
Lemma params_nd_get h r d : params_nd h r = Ok d -> forall k, match dget (r_params r) k with Some v => exists a, sderef h v = Ok a /\ dget d k = Some a | None => dget d k = None end.
Proof.
  unfold params_nd. intros E k. revert d E. induction (r_params r) as [|[k0 v] l IH]; intros d E; [injection E as <-; reflexivity|].
  cbn [rmap fst snd] in E. destruct (sderef h v) as [a|] eqn:Ev; [cbn [rbind] in E|discriminate]. destruct (rmap _ l) as [l'|]; [cbn [rbind] in E|discriminate]. injection E as <-.
  cbn [dget]. destruct (String.eqb k k0); [eauto|now apply IH].
Qed.
Lemma params_nd_ok h r : (forall k v, In (k, v) (r_params r) -> exists a, sderef h v = Ok a) -> exists d, params_nd h r = Ok d.
Proof.
  unfold params_nd. induction (r_params r) as [|[k0 v] l IH]; intros H; [now exists []|].
  destruct (H k0 v (or_introl eq_refl)) as [a Ea]. destruct IH as [d Ed]; [intros k x Hx; apply (H k); now right|].
  cbn [rmap fst snd]. rewrite Ea. cbn [rbind]. rewrite Ed. eexists. reflexivity.
Qed.
Lemma params_nd_in h r d : params_nd h r = Ok d -> forall k v, In (k, v) (r_params r) -> exists a, sderef h v = Ok a.
Proof.
  unfold params_nd. revert d. induction (r_params r) as [|[k0 v0] l IH]; intros d E k v Hin; [destruct Hin|].
  cbn [rmap fst snd] in E. destruct (sderef h v0) as [a|] eqn:Ev; [cbn [rbind] in E|discriminate]. destruct (rmap _ l) as [l'|]; [|discriminate].
  destruct Hin as [Hin|Hin]; [injection Hin as <- <-; eauto|]. exact (IH l' eq_refl k v Hin).
Qed.
Lemma In_dset {A} (d : dict A) k v x : In x (dset d k v) -> x = (k, v) \/ In x d.
Proof.
  induction d as [|[k0 v0] d IH]; cbn [dset]; [intros [H|[]]; auto|]. destruct (String.eqb k k0) eqn:E; intros [H|H]; cbn; auto.
  - apply String.eqb_eq in E. subst k0. auto.
  - destruct (IH H); auto.
Qed.
Lemma In_dupdate {A} (kw : dict A) : forall d x, In x (dupdate d kw) -> In x kw \/ In x d.
Proof.
  induction kw as [|[k v] kw IH]; intros d x H; [now right|]. change (In x (dupdate (dset d k v) kw)) in H. destruct (IH _ _ H) as [H1|H1]; [left; now right|].
  destruct (In_dset _ _ _ _ H1); [left; left; congruence|now right].
Qed.
Lemma sliders_keys kw sl : init_sliders kw = Ok sl -> dkeys sl = dkeys kw.
Proof. intros H. pose proof (C61_sliders _ _ H) as F. clear H. induction F as [|kv ks kw sl (E & _) F IH]; [reflexivity|]. unfold dkeys in *. cbn [map]. now rewrite E, IH. Qed.
Lemma NoDup_filter_keys {A} (kw : dict A) f : NoDup (dkeys kw) -> NoDup (dkeys (filter f kw)).
Proof.
  induction kw as [|kv kw IH]; intros N; [constructor|]. cbn in N. inversion N as [|? ? N1 N2]; subst. cbn [filter]. destruct (f kv); [|now apply IH].
  cbn. constructor; [|now apply IH]. intros H. apply N1. apply in_map_iff in H. destruct H as (x & <- & Hx). apply filter_In in Hx. apply in_map. apply Hx.
Qed.
Lemma start_slider : forall k (sl : dict slider) s, dget sl k = Some s -> In (k, s) sl.
Proof. intros k sl s. induction sl as [|[k0 s0] sl IH]; [discriminate|]. cbn [dget]. destruct (String.eqb k k0) eqn:E; [|right; now apply IH]. apply String.eqb_eq in E. intros X. injection X as <-. left. congruence. Qed.

Theorem C81_ready : forall w o kw d sl,
  reached w -> readable w o d -> NoDup (dkeys kw) -> snd (analyze_start o kw w) = Ok sl ->
  let w' := fst (analyze_start o kw w) in
  obs_mode w' o true /\
  (exists a, snd (step w' (OReadAngle o T0)) = RetArr a /\ plot_angles a) /\
  snd (step w' (OReadAngle o P0)) = RetArr (mk_nd [1] (fun _ => Fin 0)) /\
  (exists d', snd (step w' (OParamDict o)) = RetDict d' /\
     forall k, dget d' k = match dget sl k with Some s => Some (mk_nd [1] (fun _ => Fin (sl_val s))) | None => dget d k end) /\
  forall s, ~ missing w' o s.
Proof.
  intros w o kw d sl G Rd Nk Hs w'.
  destruct (sliders_at w o kw d G Rd) as (used & U & Hmiss & Hok & i & r & r' & Hr & St & Hr' & Ai & (ext & Ex) & Sc & _).
  assert (E0 : snd (analyze_sliders o kw w) = Ok sl).
  { unfold analyze_start, bind in Hs. destruct (analyze_sliders o kw w) as [u [sl'|]]; [|discriminate]. cbn [snd]. destruct (call_op _ u) as [u' [x|]]; [|discriminate]. unfold ret in Hs. cbn [snd] in Hs. congruence. }
  set (w1 := fst (analyze_sliders o kw w)) in *.
  assert (E1 : w_heap w' = hput (w_heap w1) o (upd_rec r' (slider_vals sl))).
  { unfold w', analyze_start, bind. unfold w1 in *. destruct (analyze_sliders o kw w) as [u x]. cbn [fst snd] in *. subst x.
    rewrite <- (step_update u o r' (slider_vals sl) Hr'). unfold call_op. destruct (step u (OUpdate o (slider_vals sl))) as [u' [| | | | | |e]]; reflexivity. }
  assert (P : r_params r' = r_params r) by (injection St; intros; assumption).
  assert (An : r_ang r' = r_ang (geo_obj r i)) by (injection St; intros; assumption).
  assert (Mo : r_mono r' = true) by (injection St; intros; assumption).
  assert (Df : r_def r' = r_def r) by (injection St; intros; assumption).
  assert (VV : r_V r' = r_V r /\ r_SRF r' = r_SRF r) by (injection St; intros; split; assumption).
  destruct (reached_sim w G) as (J & _ & Hb). specialize (Hb o r Hr).
  assert (Up : upd_rec r' (slider_vals sl) = with_params r' (dupdate (r_params r) (map (fun kv => (fst kv, S1d (snd kv))) (slider_vals sl)))).
  { unfold upd_rec. rewrite upd_kw_bsf by (now rewrite P). now rewrite P. }
  set (P' := dupdate (r_params r) (map (fun kv => (fst kv, S1d (snd kv))) (slider_vals sl))) in *. rewrite Up in E1.
  assert (Ho : obj (w_heap w') o = Ok (with_params r' P')) by (rewrite E1; eapply obj_hput_same; exact Hr').
  destruct (readable_rec w o d Rd) as (r0 & v & s & Hr0 & Hv & Hsf & Kd & Pd). assert (r0 = r) by congruence. subst r0.
  (* which names have sliders *)
  assert (Hall : forall x, needed w o x -> In x (dkeys kw) \/ dget d x <> None).
  { intros x Nx. destruct (in_dec string_dec x (dkeys kw)) as [|N]; [now left|]. right. intros Z.
    rewrite Hmiss in E0 by eauto. discriminate. }
  pose proof (Hok Hall) as E2. rewrite E0 in E2. symmetry in E2.
  pose proof (sliders_keys _ _ E2) as Ks.
  assert (Nsl : NoDup (dkeys sl)) by (rewrite Ks; now apply NoDup_filter_keys).
  assert (Av : forall u b, deref (w_heap w) u = Ok b -> deref (w_heap w') u = Ok b).
  { intros [u|u] b; cbn [deref]; [auto|]. assert (h_arrs (w_heap w') = h_arrs (w_heap w) ++ ext) as -> by (rewrite E1; exact Ex).
    destruct (nth_error (h_arrs (w_heap w)) u) as [c|] eqn:N; [|discriminate]. rewrite (nth_error_app_l _ ext _ _ N). auto. }
  assert (As : forall u b, sderef (w_heap w) u = Ok b -> sderef (w_heap w') u = Ok b).
  { intros [u|u] b; cbn [sderef]; [apply Av|]. destruct (deref (w_heap w) u) as [c|] eqn:N; [|discriminate]. now rewrite (Av _ _ N). }
  assert (Dict : exists d', params_nd (w_heap w') (with_params r' P') = Ok d').
  { apply params_nd_ok. change (r_params (with_params r' P')) with P'. intros k x Hx. apply In_dupdate in Hx. destruct Hx as [Hx|Hx].
    - apply in_map_iff in Hx. destruct Hx as ([k1 x1] & E & Hx). cbn [fst snd] in E. injection E as <- <-. unfold slider_vals in Hx. apply in_map_iff in Hx.
      destruct Hx as ([k2 s2] & E & _). cbn [fst snd] in E. injection E as <- <-. eexists. reflexivity.
    - destruct (params_nd_in _ _ _ Pd k x Hx) as [a Ha]. exists a. now apply As. }
  destruct Dict as (d' & Ed'). pose proof (params_nd_get _ _ _ Ed') as Gd'. change (r_params (with_params r' P')) with P' in Gd'.
  pose proof (params_nd_get _ _ _ Pd) as Gd.
  assert (Hd' : snd (step w' (OParamDict o)) = RetDict d') by (cbn [step]; unfold as_out, gets; rewrite Ho; cbn [rbind]; rewrite Ed'; reflexivity).
  assert (Gk : forall k, dget d' k = match dget sl k with Some s => Some (mk_nd [1] (fun _ => Fin (sl_val s))) | None => dget d k end).
  { intros k. specialize (Gd' k). specialize (Gd k). destruct (dget sl k) as [s0|] eqn:Es.
    - assert (X : dget P' k = Some (S1d (PNum (Fin (sl_val s0))))).
      { unfold P'. apply dget_dupdate_last; [assert (X : dkeys (map (fun kv : _ => (fst kv, S1d (snd kv))) (slider_vals sl)) = dkeys sl) by (rewrite dkeys_map; apply dkeys_vals); rewrite X; exact Nsl|].
        apply start_slider in Es. apply in_map_iff. exists (k, PNum (Fin (sl_val s0))). split; [reflexivity|]. unfold slider_vals. apply in_map_iff. exists (k, s0). auto. }
      rewrite X in Gd'. destruct Gd' as (a & Ea & ->). cbn in Ea. congruence.
    - assert (X : dget P' k = dget (r_params r) k).
      { unfold P'. apply dget_dupdate_out. rewrite dkeys_map. rewrite dkeys_vals. now apply dget_None_notin. }
      rewrite X in Gd'. destruct (dget (r_params r) k) as [x|]; [|congruence]. destruct Gd as (a & Ea & ->). destruct Gd' as (a' & Ea' & ->). rewrite (As _ _ Ea) in Ea'. congruence. }
  split; [exists (with_params r' P'); split; [exact Ho|exact Mo]|].
  split.
  { exists inc_angles. split; [|split; [reflexivity|intros k Hk; unfold inc_angles; cbn [get nth]; f_equal; field]].
    rewrite (step_readang _ _ _ _ Ho), read_bi by discriminate. unfold stored_ang. change (r_ang (with_params r' P')) with (r_ang r'). rewrite An.
    change (r_ang (geo_obj r i) T0) with (Some (PArr i)). cbn [deref]. assert (nth_error (h_arrs (w_heap w')) i = Some inc_angles) as -> by (rewrite E1; exact Ai). reflexivity. }
  split.
  { rewrite (step_readang _ _ _ _ Ho), read_bi by discriminate. unfold stored_ang. change (r_ang (with_params r' P')) with (r_ang r'). rewrite An.
    change (r_ang (geo_obj r i) P0) with (Some (PNum (Fin (Q2R 0)))). cbn [deref rbind]. rewrite RMicromega.Q2R_0. reflexivity. }
  split; [exists d'; auto|].
  intros x [[Na (d1 & Hd1 & N1)] Ux]. assert (d1 = d') by congruence. subst d1.
  assert (Nx : needed w o x).
  { split; [exact Na|]. destruct Ux as [(p & r1 & e & H1 & D1 & I1)|(y & sc & (r1 & H1 & S1) & I1)]; assert (r1 = with_params r' P') by congruence; subst r1.
    - left. exists p, r, e. split; [exact Hr|]. split; [|exact I1]. rewrite <- Df. exact D1.
    - right. exists y, sc. split; [|exact I1]. exists r. split; [exact Hr|]. unfold scat_at in *.
      assert (h_scats (w_heap w') = h_scats (w_heap w)) as Q by (rewrite E1; exact Sc). rewrite Q in S1. destruct VV as [V1 V2].
      destruct y; cbn [scat_id] in *; [change (r_V (with_params r' P')) with (r_V r') in S1; rewrite V1 in S1|change (r_SRF (with_params r' P')) with (r_SRF r') in S1; rewrite V2 in S1]; exact S1. }
  rewrite Gk in N1. destruct (Hall x Nx) as [Hk|Hk].
  - assert (In x (dkeys sl)).
    { rewrite Ks. unfold dkeys in *. apply in_map_iff in Hk. destruct Hk as (kv & <- & Hkv). apply in_map. apply filter_In. split; [exact Hkv|]. now apply U. }
    destruct (dget sl x) eqn:Z; [discriminate|]. now apply dget_None_notin in Z.
  - destruct (dget sl x); [discriminate|]. contradiction.
Qed.
Print Assumptions C81_ready.
Example C81_nonvacuous : exists d sl, reached w29 /\ readable w29 0 d /\
  let kw := [("t", [ENumb 0; ENumb 1]); ("x", [ENumb 0; ENumb 1]); ("tau", [ENumb 0; ENumb 1])] in
  NoDup (dkeys kw) /\ snd (analyze_start 0 kw w29) = Ok sl /\ map fst sl = ["t"; "tau"].
Proof.
  destruct C79_nonvacuous as (d & G & Rd & _). exists d. eexists. split; [exact G|]. split; [exact Rd|]. cbv zeta.
  split; [repeat constructor; cbn; intuition discriminate|]. split; [|shelve].
  vm_compute. reflexivity. Unshelve. reflexivity.
Qed.
