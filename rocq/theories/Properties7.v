(** The scattering functions and the fn-coefficients: C22, C25, C28, C29, C42. *)
From Coquelicot Require Import Coquelicot.
From Verif Require Import ExpInt AzInt LegFacts CosLobe.
From Coq Require Import Lia List.
From Verif Require Import SpecScat SpecExp.
From Verif Require Export FnInt Interact.
Open Scope string_scope.
Open Scope list_scope.
Open Scope R_scope.

(** [at_angles f g t_0 t_ex p_0 p_ex]: [g] gives the angle symbols theta_0, theta_ex, phi_0, phi_ex the
    values of the expressions under [f], and every other symbol its value under [f] *)
Definition at_angles (f : string -> R) (t_0 t_ex p_0 p_ex : expr) (x : string) : R :=
  if String.eqb x "theta_0" then evalR f t_0 else if String.eqb x "theta_ex" then evalR f t_ex
  else if String.eqb x "phi_0" then evalR f p_0 else if String.eqb x "phi_ex" then evalR f p_ex else f x.
Definition angle_syms : list string := "theta_0" :: "theta_ex" :: "phi_0" :: "phi_ex" :: nil.
Lemma at_angles_other f t_0 t_ex p_0 p_ex x : ~ In x angle_syms -> at_angles f t_0 t_ex p_0 p_ex x = f x.
Proof.
  intros H. unfold at_angles.
  destruct (String.eqb_spec x "theta_0") as [->|]; [exfalso; apply H; simpl; auto|].
  destruct (String.eqb_spec x "theta_ex") as [->|]; [exfalso; apply H; simpl; auto|].
  destruct (String.eqb_spec x "phi_0") as [->|]; [exfalso; apply H; simpl; auto|].
  destruct (String.eqb_spec x "phi_ex") as [->|]; [exfalso; apply H; simpl; auto|]. reflexivity.
Qed.
(** no parameter symbol is called like the summation index or an angle *)
Definition plain (s : scat) : Prop := forall x, In x (scat_syms s) -> x <> "n" /\ ~ In x angle_syms.
Lemma plain_no_n s : plain s -> no_n s.
Proof. intros P H. exact (proj1 (P _ H) eq_refl). Qed.
Lemma ang_at f t_0 t_ex p_0 p_ex a : (forall x, In x (a_syms a) -> ~ In x angle_syms) ->
  ang_of (at_angles f t_0 t_ex p_0 p_ex) a = cos_angle (ev_a f a) (evalR f t_0) (evalR f t_ex) (evalR f p_0) (evalR f p_ex).
Proof.
  intros H. unfold ang_of. change (at_angles f t_0 t_ex p_0 p_ex "theta_0") with (evalR f t_0). change (at_angles f t_0 t_ex p_0 p_ex "theta_ex") with (evalR f t_ex).
  change (at_angles f t_0 t_ex p_0 p_ex "phi_0") with (evalR f p_0). change (at_angles f t_0 t_ex p_0 p_ex "phi_ex") with (evalR f p_ex).
  f_equal. unfold ev_a. unfold a_syms in H.
  f_equal; apply Elem.evalR_ext; intros x Hx; apply at_angles_other; apply H; rewrite !in_app_iff; auto.
Qed.

(** *** C22.  The expansions of Isotropic and Rayleigh are the phase functions. *)
Theorem C22_isotropic_rayleigh_exact : forall s t_0 t_ex p_0 p_ex,
  (exists a, s = VIso a \/ s = VRay a \/ s = SIso a) -> plain s ->
  exists e, legendre_expansion t_0 t_ex p_0 p_ex s = Ok e /\
    forall f, evalR f e = evalR (at_angles f t_0 t_ex p_0 p_ex) (phase_function s).
Proof.
  intros s t_0 t_ex p_0 p_ex (a & Hs) P.
  assert (B : is_basic s) by (intros c b; destruct Hs as [->|[->| ->]]; discriminate).
  assert (M : Forall is_basic (members s)) by (destruct Hs as [->|[->| ->]]; repeat constructor; discriminate).
  assert (N : exists n, ncoefs s = Ok n /\ (0 < n)%nat) by (destruct Hs as [->|[->| ->]]; eexists; (split; [reflexivity|lia])).
  destruct N as (n & Hn & Pn). destruct (expansion_ok t_0 t_ex p_0 p_ex s n M Hn (fun _ => Pn)) as [e He]. exists e. split; [exact He|].
  intros f. rewrite (ev_expansion _ _ _ _ f s e He (plain_no_n _ P)), ev_phase.
  assert (Q : forall x, In x (a_syms (scat_a s)) -> ~ In x angle_syms) by (intros x Hx; apply P; now apply (scat_a_syms _ B)).
  destruct Hs as [->|[->| ->]]; cbn [scat_a] in Q; unfold expansion_value; cbn [scat_a phase_value].
  - change (nc_of (VIso a)) with 1%nat. unfold leg_series. rewrite legP_0. cbn [coef_value]. unfold c_isotropic, delta, p_isotropic. simpl. field. apply PI_neq0.
  - change (nc_of (VRay a)) with 3%nat. rewrite ang_at by assumption. unfold leg_series. rewrite legP_SS, legP_1, legP_0. cbn [coef_value]. unfold c_rayleigh, delta, p_rayleigh. simpl. field. apply PI_neq0.
  - change (nc_of (SIso a)) with 1%nat. unfold leg_series. rewrite legP_0. cbn [coef_value]. unfold c_lambert, delta, b_isotropic. simpl. field. apply PI_neq0.
Qed.
Print Assumptions C22_isotropic_rayleigh_exact.
Example C22_nonvacuous : plain (VRay (mk_a (ESym "a") (ENum (1#2)) (ESym "b"))).
Proof. intros x H. simpl in H. destruct H as [<-|[<-|[]]]; (split; [discriminate|]); intros X; repeat (destruct X as [X|X]; [discriminate X|]); exact X. Qed.

(** *** C25.  Coefficients of CosineLobe. *)
Definition C25_intended : Prop := forall i nc a n e f, legendre_coefficient n (SCos i nc a) = Ok e ->
  is_RInt (fun x => (2 * INR n + 1) / 2 * (b_coslobe i x * legP n x)) (-1) 1 (evalR f e).
Theorem C25_coslobe_partial : forall i nc a n e f, (1 <= i)%nat -> legendre_coefficient n (SCos i nc a) = Ok e ->
  is_RInt (fun x => (2 * INR n + 1) / 2 * (b_coslobe i x * legP n x)) (-1) 1 (evalR f e).
Proof.
  intros i nc a n e f Hi H. destruct (coslobe_coef_val f n i nc a e H) as [-> _].
  assert (I1 : is_RInt (fun x => (2 * INR n + 1) / 2 * (b_coslobe i x * legP n x)) (-1) 0 0).
  { apply (is_RInt_ext (fun _ => 0)); [|apply is_zero]. intros x Hx. rewrite Rmin_left, Rmax_right in Hx by lra.
    unfold b_coslobe. destruct (Rlt_dec 0 x); [lra|]. rewrite pow_i by lia. match goal with |- ?u = ?v => change (u = v :> R) end. unfold Rdiv. ring. }
  assert (I2 : is_RInt (fun x => (2 * INR n + 1) / 2 * (b_coslobe i x * legP n x)) 0 1 (1 / PI * ((2 * INR n + 1) / 2 * moment i n))).
  { apply (is_RInt_ext (fun x => (1 / PI * ((2 * INR n + 1) / 2)) * (x ^ i * legP n x))).
    - intros x Hx. rewrite Rmin_left, Rmax_right in Hx by lra. unfold b_coslobe. destruct (Rlt_dec 0 x); [|lra].
      match goal with |- ?u = ?v => change (u = v :> R) end. field. apply PI_neq0.
    - eapply is_val; [apply is_scale, is_moment|]. ring. }
  pose proof (is_RInt_Chasles _ _ _ _ _ _ I1 I2) as X. eapply is_val; [exact X|]. unfold plus. cbn. ring.
Qed.
Print Assumptions C25_coslobe_partial.
Theorem C25_refuted : ~ C25_intended.
Proof.
  intros Q. assert (H : exists e, legendre_coefficient 0 (SCos 0 None a_srf) = Ok e) by (eexists; reflexivity). destruct H as [e He].
  specialize (Q 0%nat None a_srf 0%nat e (fun _ => 0) He).
  destruct (coslobe_coef_val (fun _ => 0) 0 0 None a_srf e He) as [V _]. rewrite V in Q.
  assert (M : moment 0 0 = 1). { rewrite moment_0. simpl. field. }
  rewrite M in Q.
  assert (C : is_RInt (fun x => (2 * INR 0 + 1) / 2 * (b_coslobe 0 x * legP 0 x)) (-1) 1 (1 / PI)).
  { apply (is_ext (fun _ => 1 / 2 * (1 / PI))).
    - intros x. unfold b_coslobe. rewrite legP_0. simpl. field. apply PI_neq0.
    - pose proof (is_RInt_const (-1) 1 (1 / 2 * (1 / PI))) as K. eapply is_val; [exact K|]. unfold scal. cbn. unfold mult. cbn. field. apply PI_neq0. }
  pose proof (is_RInt_unique _ _ _ _ Q) as E1. pose proof (is_RInt_unique _ _ _ _ C) as E. rewrite E1 in E. simpl in E.
  pose proof PI_RGT_0. assert (0 < 1 / PI) by (apply Rdiv_lt_0_compat; lra). lra.
Qed.
Print Assumptions C25_refuted.

(** *** C28.  Linear combinations. *)
(** sum of weight * h(member) *)
Definition lin (f : string -> R) (cs : list (expr * scat)) (h : scat -> R) : R :=
  fold_right (fun c acc => evalR f (fst c) * h (snd c) + acc) 0 cs.
Theorem C28_phase_linear : forall cs a f,
  evalR f (phase_function (LinComb cs a)) = lin f cs (fun s => evalR f (phase_function s)).
Proof.
  intros cs a f. rewrite ev_phase. cbn [phase_value]. unfold lin. induction cs as [|c cs IH]; [reflexivity|]. cbn [fold_right]. rewrite IH, ev_phase. reflexivity.
Qed.
Print Assumptions C28_phase_linear.
Definition C28_intended : Prop := forall cs a t_0 t_ex p_0 p_ex e f,
  plain (LinComb cs a) -> legendre_expansion t_0 t_ex p_0 p_ex (LinComb cs a) = Ok e ->
  exists es : scat -> expr, (forall c, In c cs -> legendre_expansion t_0 t_ex p_0 p_ex (snd c) = Ok (es (snd c))) /\
    evalR f e = lin f cs (fun s => evalR f (es s)).
(** holds if members with the same [a] have the same ncoefs (and no member has ncoefs = 0) *)
Definition uniform (cs : list (expr * scat)) : Prop :=
  (forall c, In c cs -> ncoefs (snd c) <> Ok 0%nat) /\
  forall c d, In c cs -> In d cs -> atrip_eqb (scat_a (snd c)) (scat_a (snd d)) = true -> ncoefs (snd c) = ncoefs (snd d).
Lemma group_uniform cs c : uniform cs -> In c cs -> group_nc cs (scat_a (snd c)) = nc_of (snd c).
Proof.
  intros [_ U] Hc. unfold group_nc. apply Nat.le_antisymm.
  - apply list_max_le. apply Forall_forall. intros x Hx. apply in_map_iff in Hx. destruct Hx as (d & <- & Hd). apply filter_In in Hd.
    destruct Hd as [Hd Sd]. unfold nc_of. unfold same_a in Sd. rewrite (U c d Hc Hd Sd). lia.
  - apply list_max_in. apply in_map_iff. exists c. split; [reflexivity|]. apply filter_In. split; [assumption|]. unfold same_a. apply atrip_refl.
Qed.
Lemma lexp_ncoefs t_0 t_ex p_0 p_ex cs a e : legendre_expansion t_0 t_ex p_0 p_ex (LinComb cs a) = Ok e ->
  forall c, In c cs -> exists n, ncoefs (snd c) = Ok n.
Proof.
  intros H c Hc. destruct (lexp_lin _ _ _ _ _ _ _ H) as [_ F].
  destruct (proj1 (proj2 (proj2 (a_groups_ok cs))) c Hc) as (g & Hg & Hs).
  assert (G : forall gs x, fold_left (grp_step t_0 t_ex p_0 p_ex) gs (Ok x) = Ok e -> In g gs -> exists nc, rmax (map (fun c => ncoefs (snd c)) (snd g)) = Ok nc).
  { induction gs as [|g' gs IH]; intros x E I; [destruct I|]. cbn [fold_left] in E.
    destruct (grp_step t_0 t_ex p_0 p_ex (Ok x) g') as [y|] eqn:Ey; [|rewrite grp_step_err in E; discriminate E].
    destruct I as [->|I]; [|now apply (IH _ E)]. destruct (grp_step_inv _ _ _ _ _ _ _ Ey) as (nc & c0 & e1 & R & _). eauto. }
  destruct (G _ _ F Hg) as [nc R]. apply rmax_ok in R. destruct R as [_ R]. rewrite Forall_map, Forall_forall in R. apply R.
  rewrite (proj1 (proj1 (a_groups_ok cs) g Hg)). apply filter_In. auto.
Qed.
Theorem C28_expansion_linear_partial : forall cs a t_0 t_ex p_0 p_ex e f,
  uniform cs ->
  plain (LinComb cs a) -> legendre_expansion t_0 t_ex p_0 p_ex (LinComb cs a) = Ok e ->
  exists es : scat -> expr, (forall c, In c cs -> legendre_expansion t_0 t_ex p_0 p_ex (snd c) = Ok (es (snd c))) /\
    evalR f e = lin f cs (fun s => evalR f (es s)).
Proof.
  intros cs a t_0 t_ex p_0 p_ex e f U P H.
  set (es := fun s => match legendre_expansion t_0 t_ex p_0 p_ex s with Ok x => x | Err _ => ENum 0 end).
  pose proof (lexp_members _ _ _ _ _ _ _ H) as MB. rewrite Forall_forall in MB.
  assert (EX : forall c, In c cs -> legendre_expansion t_0 t_ex p_0 p_ex (snd c) = Ok (es (snd c))).
  { intros c Hc. destruct (lexp_ncoefs _ _ _ _ _ _ _ H c Hc) as [n Hn]. pose proof (MB c Hc) as B.
    destruct (expansion_ok t_0 t_ex p_0 p_ex (snd c) n) as [x Hx]; [|exact Hn| |unfold es; now rewrite Hx].
    - destruct (snd c) as [| | | | | | | |cs' a']; repeat constructor; try exact B. destruct (B cs' a' eq_refl).
    - intros _. pose proof (proj1 U c Hc) as Z. destruct n; [congruence|lia]. }
  exists es. split; [exact EX|].
  rewrite (ev_expansion _ _ _ _ f _ e H (plain_no_n _ P)). cbn [expansion_value]. unfold lin, wsum.
  assert (G : forall l, (forall c, In c l -> In c cs) ->
    fold_right (fun c acc => evalR f (fst c) * leg_series (coef_value f (snd c)) (group_nc cs (scat_a (snd c)))
        (cos_angle (ev_a f (scat_a (snd c))) (evalR f t_0) (evalR f t_ex) (evalR f p_0) (evalR f p_ex)) + acc) 0 l =
    fold_right (fun c acc => evalR f (fst c) * evalR f (es (snd c)) + acc) 0 l).
  { induction l as [|c l IH]; intros L; [reflexivity|]. cbn [fold_right]. rewrite IH by (intros; apply L; simpl; auto). f_equal. f_equal.
    assert (Hc : In c cs) by (apply L; simpl; auto). pose proof (MB c Hc) as B.
    rewrite (ev_expansion _ _ _ _ f _ _ (EX c Hc)).
    - rewrite (group_uniform cs c U Hc). destruct (snd c) as [| | | | | | | |cs' a']; try reflexivity. destruct (B cs' a' eq_refl).
    - intros X. apply (plain_no_n _ P). unfold no_n. cbn [scat_syms]. apply in_flat_map. exists c. split; [assumption|]. apply in_or_app. auto. }
  apply G. auto.
Qed.
Print Assumptions C28_expansion_linear_partial.
(** two members with the same a, one and two coefficients *)
Definition two_hg : list (expr * scat) :=
  (ENum 1, VHG (ENum (1#2)) (Some 1%nat) a_vol) :: (ENum 1, VHG (ENum (1#2)) (Some 2%nat) a_vol) :: nil.
Lemma plain_two : plain (LinComb two_hg a_vol).
Proof. intros x H. simpl in H. destruct H. Qed.
Lemma cos_angle_nadir : cos_angle (ev_a (fun _ => 0) a_vol) (evalR (fun _ => 0) (ENum 0)) (evalR (fun _ => 0) (ENum 0)) (evalR (fun _ => 0) (ENum 0)) (evalR (fun _ => 0) (ENum 0)) = -1.
Proof.
  unfold cos_angle, ev_a, a_vol. cbn [a0 a1 a2 evalR ga0 ga1 ga2]. replace (Q2R 0) with 0 by (unfold Q2R; simpl; ring).
  rewrite cos_0, sin_0. replace (Q2R (-1)) with (-1) by (unfold Q2R; simpl; lra). ring.
Qed.
Theorem C28_refuted : ~ C28_intended.
Proof.
  intros Q. assert (H : exists e, legendre_expansion (ENum 0) (ENum 0) (ENum 0) (ENum 0) (LinComb two_hg a_vol) = Ok e) by (eexists; reflexivity).
  destruct H as [e He]. destruct (Q _ _ _ _ _ _ _ (fun _ => 0) plain_two He) as (es & E1 & E2).
  rewrite (ev_expansion _ _ _ _ _ _ e He (plain_no_n _ plain_two)) in E2.
  pose proof (E1 _ (or_introl eq_refl)) as A1. pose proof (E1 _ (or_intror (or_introl eq_refl))) as A2. cbn [snd] in A1, A2.
  unfold lin, two_hg in E2. cbn [fold_right fst snd] in E2.
  rewrite (ev_expansion _ _ _ _ _ _ _ A1), (ev_expansion _ _ _ _ _ _ _ A2) in E2 by (intros X; destruct X).
  cbn [expansion_value wsum fold_right fst snd scat_a] in E2. rewrite !cos_angle_nadir in E2.
  change (nc_of (VHG (ENum (1#2)) (Some 1%nat) a_vol)) with 1%nat in E2. change (nc_of (VHG (ENum (1#2)) (Some 2%nat) a_vol)) with 2%nat in E2.
  change (group_nc _ a_vol) with 2%nat in E2. cbn [coef_value] in E2.
  unfold leg_series in E2. rewrite legP_0, legP_1 in E2. cbn [evalR] in E2. rewrite Q2R_1' in E2.
  assert (C : c_hg (Q2R (1#2)) 1 = 1 / (4 * PI) * 3 * (1 / 2)) by (unfold c_hg, Q2R; simpl; field; apply PI_neq0). cbn [coef_value evalR] in E2. rewrite C in E2.
  pose proof PI_RGT_0. assert (P : 0 < 1 / (4 * PI)) by (apply Rdiv_lt_0_compat; lra).
  set (k := 1 / (4 * PI)) in *. lra.
Qed.
Print Assumptions C28_refuted.
(** different a: the hypothesis of the partial theorem holds with different ncoefs *)
Example C28_nonvacuous :
  let cs := (ESym "w", VHG (ESym "t") (Some 3%nat) a_vol) :: (EAdd (ENum 1) (EMul (ENum (-1)) (ESym "w")), VRay a_srf) :: (ENum 2, VIso a_srf) :: nil in
  let cs' := (ESym "w", VHG (ESym "t") (Some 7%nat) a_vol) :: (ENum 2, VRay a_srf) :: nil in
  plain (LinComb cs' a_vol) /\ uniform cs' /\ ~ uniform cs.
Proof.
  cbn zeta. split; [|split].
  - intros x H. simpl in H. destruct H as [<-|[<-|[]]]; (split; [discriminate|]); intros X; repeat (destruct X as [X|X]; [discriminate X|]); exact X.
  - split.
    + intros c [<-|[<-|[]]]; discriminate.
    + intros c d [<-|[<-|[]]] [<-|[<-|[]]] E; try reflexivity; discriminate E.
  - intros [_ U]. specialize (U (EAdd (ENum 1) (EMul (ENum (-1)) (ESym "w")), VRay a_srf) (ENum 2, VIso a_srf)).
    cbn [snd] in U. assert (X : ncoefs (VRay a_srf) = ncoefs (VIso a_srf)) by (apply U; [simpl; auto|simpl; auto|reflexivity]). discriminate X.
Qed.

(** *** C29.  The fn-coefficients represent the azimuth integral. *)
Theorem C29_fn_azimuth_integral : forall V SRF g nV nS,
  Forall is_basic (members V) -> Forall is_basic (members SRF) ->
  ncoefs V = Ok nV -> ncoefs SRF = Ok nS -> (0 < nV)%nat -> (0 < nS)%nat ->
  free_angs g -> free_scat V -> free_scat SRF -> no_n V -> no_n SRF ->
  exists fns ve be,
    calc_fn V SRF g = Ok fns /\
    legendre_expansion (esub EPi (g_t0 g)) (ESym "theta_s") (g_p0 g) (ESym "phi_s") V = Ok ve /\
    legendre_expansion (ESym "theta_s") (g_tex g) (ESym "phi_s") (eadd (g_pex g) EPi) SRF = Ok be /\
    forall f th, is_RInt (fun ph => evalR (at_dir f th ph) ve * evalR (at_dir f th ph) be) 0 (2 * PI)
                         (poly_at (map (evalR f) (firstn (nV + nS - 1) fns)) (cos th)).
Proof.
  intros V SRF g nV nS MV MS HV HS PV PS Fg FV FS NV NS.
  destruct (calc_fn_ok V SRF g nV nS MV MS HV HS PV PS) as [fns E].
  destruct (fn_parts V SRF g fns E) as (be & ve & nV' & nS' & EB & EV & _). exists fns, ve, be. repeat (split; [assumption|]).
  intros f th. apply (is_ext (fun ph => vol_exp V g f th ph * brdf_exp SRF g f th ph)).
  - intros ph. rewrite (ev_expansion _ _ _ _ _ _ _ EB NS), (ev_expansion _ _ _ _ _ _ _ EV NV).
    rewrite (expansion_value_ext (at_dir f th ph) f SRF) by (eauto using lexp_basic_members; now apply at_dir_syms).
    rewrite (expansion_value_ext (at_dir f th ph) f V) by (eauto using lexp_basic_members; now apply at_dir_syms).
    rewrite ev_esub, ev_eadd. destruct Fg as (A & B & C & F).
    rewrite (free_ev f th ph (g_t0 g) A), (free_ev f th ph (g_tex g) B), (free_ev f th ph (g_p0 g) C), (free_ev f th ph (g_pex g) F).
    cbn [evalR]. rewrite at_dir_theta, at_dir_phi. reflexivity.
  - pose proof (fn_integral V SRF g fns E nV nS HV HS PV PS Fg FV FS f th NV NS) as I.
    pose proof (fn_length V SRF g fns E nV nS HV HS PV PS) as L.
    destruct (Nat.le_gt_cases 2 (nV + nS - 1)) as [K|K].
    + rewrite firstn_all2 by (rewrite L; lia). exact I.
    + assert (nV = 1%nat /\ nS = 1%nat) as [-> ->] by lia. cbn in L. destruct fns as [|x [|y [|z fns]]]; try discriminate L.
      cbn [Nat.add Nat.sub firstn map]. eapply is_val; [exact I|]. cbn [map]. rewrite poly_at_pair, (fn_second V SRF g x y f E); auto. simpl. ring.
Qed.
Print Assumptions C29_fn_azimuth_integral.
(** the number of stored coefficients *)
Theorem C29_length : forall V SRF g nV nS fns, calc_fn V SRF g = Ok fns -> ncoefs V = Ok nV -> ncoefs SRF = Ok nS ->
  (0 < nV)%nat -> (0 < nS)%nat -> List.length fns = Nat.max 2 (nV + nS - 1).
Proof. intros V SRF g nV nS fns E HV HS PV PS. rewrite (fn_length V SRF g fns E nV nS HV HS PV PS). f_equal. lia. Qed.
Print Assumptions C29_length.
Example C29_nonvacuous : exists g, free_angs g /\
  let V := LinComb ((ESym "w", VHG (ESym "t") (Some 7%nat) a_vol) :: (ENum 2, VRay a_srf) :: nil) a_vol in
  let SRF := SHGn (ESym "ts") (Some 5%nat) (mk_a (ESym "a") (ENum 1) (ENum 1)) in
  Forall is_basic (members V) /\ Forall is_basic (members SRF) /\ ncoefs V = Ok 7%nat /\ ncoefs SRF = Ok 5%nat /\
  free_scat V /\ free_scat SRF /\ no_n V /\ no_n SRF.
Proof.
  exists (mk_angs (ESym "theta_0") (ESym "theta_0") (ESym "phi_0") (eadd (ESym "phi_0") EPi)). cbn zeta.
  split; [repeat split; intros X; vm_compute in X; intuition discriminate|].
  split; [repeat constructor; discriminate|]. split; [repeat constructor; discriminate|]. split; [reflexivity|]. split; [reflexivity|].
  split; [intros x H _; simpl in H; destruct H as [<-|[<-|[]]]; split; discriminate|].
  split; [intros x H _; simpl in H; destruct H as [<-|[<-|[]]]; split; discriminate|].
  split; intros H; simpl in H; destruct H as [H|[H|[]]]; discriminate H.
Qed.

(** *** C42.  A parameter given as a symbol. *)
(** the function with the symbol [x] replaced by the number [q] *)
Definition put_a (x : string) (q : Q) (a : atrip) : atrip :=
  mk_a (subst x (ENum q) (a0 a)) (subst x (ENum q) (a1 a)) (subst x (ENum q) (a2 a)).
Fixpoint put (x : string) (q : Q) (s : scat) : scat :=
  match s with
  | VIso a => VIso (put_a x q a)
  | VRay a => VRay (put_a x q a)
  | VHG t nc a => VHG (subst x (ENum q) t) nc (put_a x q a)
  | VHGRay t nc a => VHGRay (subst x (ENum q) t) nc (put_a x q a)
  | SIso a => SIso (put_a x q a)
  | SCos i nc a => SCos i nc (put_a x q a)
  | SHG t nc a => SHG (subst x (ENum q) t) nc (put_a x q a)
  | SHGn t nc a => SHGn (subst x (ENum q) t) nc (put_a x q a)
  | LinComb cs a => LinComb (map (fun c => (subst x (ENum q) (fst c), put x q (snd c))) cs) (put_a x q a)
  end.
Definition C42_intended : Prop := forall x q s t_0 t_ex p_0 p_ex e f,
  is_basic s -> legendre_expansion t_0 t_ex p_0 p_ex s = Ok e -> f x = Q2R q ->
  exists e', legendre_expansion t_0 t_ex p_0 p_ex (put x q s) = Ok e' /\ evalR f e = evalR f e'.

Lemma ev_subst f x q e : f x = Q2R q -> evalR f (subst x (ENum q) e) = evalR f e.
Proof.
  intros H. induction e; cbn [subst evalR]; rewrite ?IHe, ?IHe1, ?IHe2; try reflexivity.
  destruct (String.eqb_spec s x) as [->|]; [now cbn [evalR]; rewrite H|reflexivity].
Qed.
Lemma syms_subst x q e : incl (syms (subst x (ENum q) e)) (syms e).
Proof.
  induction e; cbn [subst syms]; try apply incl_refl; try assumption; try (apply incl_app; [apply incl_appl|apply incl_appr]; assumption).
  destruct (String.eqb_spec s x); [intros y []|apply incl_refl].
Qed.
Lemma syms_put_a x q a : incl (a_syms (put_a x q a)) (a_syms a).
Proof. unfold a_syms, put_a. cbn [a0 a1 a2]. repeat (apply incl_app; [apply incl_appl, syms_subst|apply incl_appr]). apply syms_subst. Qed.
Lemma syms_put x q s : incl (scat_syms (put x q s)) (scat_syms s).
Proof.
  induction s using scat_ind'; cbn [put scat_syms]; try apply syms_put_a; try (apply incl_app; [apply incl_appl, syms_subst|apply incl_appr, syms_put_a]).
  intros y Hy. apply in_flat_map in Hy. destruct Hy as (c & Hc & Hy). apply in_map_iff in Hc. destruct Hc as (d & <- & Hd). cbn [fst snd] in Hy.
  apply in_flat_map. exists d. split; [assumption|]. apply in_app_iff in Hy. apply in_app_iff. destruct Hy as [Hy|Hy]; [left; now apply (syms_subst x q)|right].
  rewrite Forall_forall in H. exact (H d Hd y Hy).
Qed.
Lemma no_n_put x q s : no_n s -> no_n (put x q s).
Proof. intros N X. apply N. exact (syms_put x q s _ X). Qed.
Lemma ev_put_a f x q a : f x = Q2R q -> ev_a f (put_a x q a) = ev_a f a.
Proof. intros H. unfold ev_a, put_a. cbn [a0 a1 a2]. now rewrite !ev_subst. Qed.
Lemma put_basic x q s : is_basic s -> is_basic (put x q s).
Proof. intros B. destruct s as [| | | | | | | |cs a]; try (intros ? ? X; discriminate X). destruct (B cs a eq_refl). Qed.
Lemma put_scat_a x q s : scat_a (put x q s) = put_a x q (scat_a s). Proof. destruct s; reflexivity. Qed.
Lemma put_ncoefs x q s : ncoefs (put x q s) = ncoefs s.
Proof.
  induction s using scat_ind'; cbn [put ncoefs]; try reflexivity. rewrite map_map. cbn [snd]. f_equal. apply map_ext_in. intros c Hc.
  rewrite Forall_forall in H. now apply H.
Qed.
Lemma coef_put f x q s k : f x = Q2R q -> coef_value f (put x q s) k = coef_value f s k.
Proof. intros H. destruct s; cbn [put coef_value]; rewrite ?ev_subst; auto. unfold put_a. cbn [a0]. now rewrite ev_subst. Qed.
Lemma members_put x q s : Forall is_basic (members s) -> Forall is_basic (members (put x q s)).
Proof.
  intros H. destruct s; cbn [put members] in *; try (repeat constructor; discriminate). rewrite map_map. cbn [snd]. rewrite Forall_map in *.
  rewrite Forall_forall in *. intros c Hc. now apply put_basic, H.
Qed.
Lemma leg_series_ext c d n x : (forall k, c k = d k) -> leg_series c n x = leg_series d n x.
Proof. intros H. induction n as [|n IH]; [reflexivity|]. simpl. now rewrite IH, H. Qed.
Lemma subst_eqb x q a : forall b, expr_eqb a b = true -> expr_eqb (subst x (ENum q) a) (subst x (ENum q) b) = true.
Proof.
  induction a; intros b H; destruct b; try discriminate H; cbn [subst expr_eqb] in *; auto;
    try (apply andb_true_iff in H; destruct H; apply andb_true_iff; split; auto; fail).
  apply String.eqb_eq in H. subst. destruct (String.eqb_spec s0 x); [apply expr_eqb_refl|]. cbn [expr_eqb]. apply String.eqb_refl.
Qed.
Lemma put_a_eqb x q a b : atrip_eqb a b = true -> atrip_eqb (put_a x q a) (put_a x q b) = true.
Proof. intros H. apply atrip_inv in H. destruct H as (A & B & C). unfold atrip_eqb, put_a. cbn [a0 a1 a2]. rewrite !andb_true_iff. auto using subst_eqb. Qed.
Definition put_choices (x : string) (q : Q) (cs : list (expr * scat)) : list (expr * scat) :=
  map (fun c => (subst x (ENum q) (fst c), put x q (snd c))) cs.
Lemma uniform_put x q cs : uniform (put_choices x q cs) -> uniform cs.
Proof.
  intros [A B]. unfold put_choices in *. split.
  - intros c Hc X. apply (A (subst x (ENum q) (fst c), put x q (snd c))); [apply in_map_iff; eauto|]. cbn [snd]. now rewrite put_ncoefs.
  - intros c d Hc Hd E. specialize (B (subst x (ENum q) (fst c), put x q (snd c)) (subst x (ENum q) (fst d), put x q (snd d))).
    cbn [snd] in B. rewrite !put_ncoefs, !put_scat_a in B. apply B; [apply in_map_iff; eauto|apply in_map_iff; eauto|now apply put_a_eqb].
Qed.
(** the name of no parameter is n; for LinComb the members that share [a] after the replacement have the same ncoefs (see C28) *)
Theorem C42_symbol_partial : forall x q s t_0 t_ex p_0 p_ex e f,
  no_n s -> (forall cs a, s = LinComb cs a -> uniform (put_choices x q cs)) ->
  legendre_expansion t_0 t_ex p_0 p_ex s = Ok e -> f x = Q2R q ->
  exists e', legendre_expansion t_0 t_ex p_0 p_ex (put x q s) = Ok e' /\ evalR f e = evalR f e'.
Proof.
  intros x q s t_0 t_ex p_0 p_ex e f N U H Hx.
  assert (MB : Forall is_basic (members s)) by (eauto using lexp_basic_members).
  assert (NC : exists n, ncoefs s = Ok n /\ (is_basic s -> (0 < n)%nat)).
  { destruct (basic_dec s) as [(cs & a & ->)|B].
    - pose proof (lexp_ncoefs _ _ _ _ _ _ _ H) as A. cbn [ncoefs]. destruct (rmax_some (map (fun c => ncoefs (snd c)) cs)) as [n Hn].
      + destruct (lexp_lin _ _ _ _ _ _ _ H) as [Z _]. intros X. apply map_eq_nil in X. contradiction.
      + rewrite Forall_map. apply Forall_forall. exact A.
      + exists n. split; [exact Hn|]. intros B. destruct (B cs a eq_refl).
    - rewrite (lexp_basic _ _ _ _ _ B) in H. destruct (ncoefs s) as [n|]; [|discriminate H]. exists n. split; [reflexivity|]. intros _.
      cbn [rbind] in H. destruct (Nat.eqb_spec n 0); [discriminate H|lia]. }
  destruct NC as (n & Hn & Pn).
  destruct (expansion_ok t_0 t_ex p_0 p_ex (put x q s) n (members_put x q s MB)) as [e' He'].
  { now rewrite put_ncoefs. }
  { intros B. apply Pn. intros cs a ->. exact (B _ _ eq_refl). }
  exists e'. split; [exact He'|].
  rewrite (ev_expansion _ _ _ _ f _ _ H N), (ev_expansion _ _ _ _ f _ _ He' (no_n_put x q s N)).
  destruct (basic_dec s) as [(cs & a & ->)|B].
  - specialize (U cs a eq_refl). pose proof (uniform_put _ _ _ U) as U0. cbn [put expansion_value]. fold (put_choices x q cs).
    assert (G : forall l, (forall c, In c l -> In c cs) ->
      wsum (fun c => evalR f (fst c) * leg_series (coef_value f (snd c)) (group_nc cs (scat_a (snd c)))
        (cos_angle (ev_a f (scat_a (snd c))) (evalR f t_0) (evalR f t_ex) (evalR f p_0) (evalR f p_ex))) l =
      wsum (fun c => evalR f (fst c) * leg_series (coef_value f (snd c)) (group_nc (put_choices x q cs) (scat_a (snd c)))
        (cos_angle (ev_a f (scat_a (snd c))) (evalR f t_0) (evalR f t_ex) (evalR f p_0) (evalR f p_ex))) (put_choices x q l)).
    { induction l as [|c l IH]; intros L; [reflexivity|]. cbn [put_choices map wsum fold_right fst snd]. f_equal.
      - rewrite (group_uniform cs c U0) by (apply L; simpl; auto).
        pose proof (group_uniform (put_choices x q cs) (subst x (ENum q) (fst c), put x q (snd c)) U) as Y. cbn [snd] in Y. rewrite Y.
        + rewrite ev_subst by assumption. f_equal. unfold nc_of. rewrite put_ncoefs, put_scat_a, ev_put_a by assumption.
          apply leg_series_ext. intros k. symmetry. now apply coef_put.
        + apply in_map_iff. exists c. split; [reflexivity|]. apply L. simpl. auto.
      - apply IH. intros d Hd. apply L. simpl. auto. }
    apply G. auto.
  - assert (Ev : forall s', is_basic s' -> forall a b c d, expansion_value f s' a b c d = leg_series (coef_value f s') (nc_of s') (cos_angle (ev_a f (scat_a s')) a b c d)).
    { intros s' B' ? ? ? ?. destruct s'; try reflexivity. destruct (B' _ _ eq_refl). }
    rewrite !Ev by auto using put_basic. unfold nc_of. rewrite put_ncoefs, put_scat_a, ev_put_a by assumption.
    apply leg_series_ext. intros k. symmetry. now apply coef_put.
Qed.
Print Assumptions C42_symbol_partial.
Example C42_nonvacuous : exists e,
  let s := LinComb ((ESym "w", VHG (ESym "t") (Some 7%nat) a_vol) :: (ENum 2, VRay a_srf) :: nil) a_vol in
  no_n s /\ (forall cs a, s = LinComb cs a -> uniform (put_choices "t" (1#4) cs)) /\
  legendre_expansion (ESym "theta_0") (ESym "theta_ex") (ESym "phi_0") (ESym "phi_ex") s = Ok e.
Proof.
  eexists. cbn zeta. split; [|split; [|reflexivity]].
  - intros H. simpl in H. destruct H as [H|[H|[]]]; discriminate H.
  - intros cs a E. inversion E; subst. split.
    + intros c [<-|[<-|[]]]; discriminate.
    + intros c d [<-|[<-|[]]] [<-|[<-|[]]] X; try reflexivity; discriminate X.
Qed.
(** a parameter called n takes the value of the summation index *)
Theorem C42_refuted : ~ C42_intended.
Proof.
  intros Q. set (f := fun s : string => if String.eqb s "n" then Q2R (1#2) else 0).
  assert (B : is_basic (VHG (ESym "n") (Some 2%nat) a_vol)) by discriminate.
  assert (H : exists e, legendre_expansion (ENum 0) (ENum 0) (ENum 0) (ENum 0) (VHG (ESym "n") (Some 2%nat) a_vol) = Ok e) by (eexists; reflexivity).
  destruct H as [e He]. destruct (Q "n" (1#2) _ _ _ _ _ _ f B He eq_refl) as (e' & He' & E).
  vm_compute in He, He'. okinv He. okinv He'. revert E. cbn [evalR]. unfold Q2R. simpl. intros E. replace (1 * / 1) with 1 in E by field. replace (4 * / 1) with 4 in E by field. replace (3 * / 1) with 3 in E by field. replace (-1 * / 1) with (-1) in E by field.
  pose proof PI_RGT_0. assert (P : 0 < 1 / (4 * PI)) by (apply Rdiv_lt_0_compat; lra). set (k := 1 / (4 * PI)) in *. lra.
Qed.
Print Assumptions C42_refuted.
