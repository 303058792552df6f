(** Convergence and normalisation of the scattering functions: C23, C24, C26, C27. *)
From Coquelicot Require Import Coquelicot.
From Verif Require Import ExpInt LegFacts Sphere.
From Coq Require Import Lia List.
From Verif Require Import SpecScat SpecExp.
From Verif Require Export Properties7.
Open Scope string_scope.
Open Scope list_scope.
Open Scope R_scope.

(** the generalization parameters are in [-1, 1] *)
Definition unit_a (f : string -> R) (a : atrip) : Prop :=
  Rabs (evalR f (a0 a)) <= 1 /\ Rabs (evalR f (a1 a)) <= 1 /\ Rabs (evalR f (a2 a)) <= 1.
Lemma basic_value t_0 t_ex p_0 p_ex s n : is_basic s -> plain s -> ncoefs s = Ok n -> (0 < n)%nat ->
  exists e, legendre_expansion t_0 t_ex p_0 p_ex s = Ok e /\
    forall f, evalR f e = leg_series (coef_value f s) n (cos_angle (ev_a f (scat_a s)) (evalR f t_0) (evalR f t_ex) (evalR f p_0) (evalR f p_ex)).
Proof.
  intros B P Hn Pn.
  assert (M : Forall is_basic (members s)) by (destruct s as [| | | | | | | |cs a]; repeat constructor; try exact B; destruct (B cs a eq_refl)).
  destruct (expansion_ok t_0 t_ex p_0 p_ex s n M Hn (fun _ => Pn)) as [e He]. exists e. split; [exact He|].
  intros f. rewrite (ev_expansion _ _ _ _ f s e He (plain_no_n _ P)).
  assert (E : nc_of s = n) by (unfold nc_of; now rewrite Hn). rewrite <- E. destruct s as [| | | | | | | |cs a]; try reflexivity. destruct (B cs a eq_refl).
Qed.
Lemma leg_series_scale c d k n x : (forall j, c j = k * d j) -> leg_series c n x = k * leg_series d n x.
Proof. intros H. induction n as [|n IH]; [simpl; ring|]. cbn [leg_series]. rewrite IH, H. ring. Qed.

(** evaluation of a parameter of [s] is not affected by the angle symbols *)
Lemma at_angles_param f t_0 t_ex p_0 p_ex e : (forall x, In x (syms e) -> ~ In x angle_syms) -> evalR (at_angles f t_0 t_ex p_0 p_ex) e = evalR f e.
Proof. intros H. apply Elem.evalR_ext. intros x Hx. now apply at_angles_other, H. Qed.
Lemma angle_unit f a t0 tex p0 pex : unit_a f a -> Rabs (cos_angle (ev_a f a) t0 tex p0 pex) <= 1.
Proof. intros (A & B & C). now apply cos_angle_le. Qed.

(** *** C23.  Henyey-Greenstein. *)
(** [hg_tail t N] = |t|^N ((2N+1)/(1-|t|) + 2|t|/(1-|t|)^2) *)
Theorem C23_hg_converges : forall t N a t_0 t_ex p_0 p_ex s,
  s = VHG t (Some (S N)) a \/ s = SHG t (Some (S N)) a -> plain s ->
  exists e, legendre_expansion t_0 t_ex p_0 p_ex s = Ok e /\
    forall f, Rabs (evalR f t) < 1 -> unit_a f a ->
      Rabs (evalR (at_angles f t_0 t_ex p_0 p_ex) (phase_function s) - evalR f e)
      <= hg_tail (evalR f t) (S N) / (match s with VHG _ _ _ => 4 * PI | _ => PI end).
Proof.
  intros t N a t_0 t_ex p_0 p_ex s Hs P. pose proof PI_RGT_0 as HP.
  assert (B : is_basic s) by (destruct Hs as [-> | ->]; discriminate).
  assert (Hn : ncoefs s = Ok (S N)) by (destruct Hs as [-> | ->]; reflexivity).
  destruct (basic_value t_0 t_ex p_0 p_ex s (S N) B P Hn ltac:(lia)) as (e & He & V). exists e. split; [exact He|]. intros f Ht Ha.
  rewrite V, ev_phase.
  assert (Qa : forall x, In x (a_syms a) -> ~ In x angle_syms) by (intros x Hx; apply P; destruct Hs as [-> | ->]; cbn [scat_syms]; apply in_or_app; auto).
  assert (Qt : forall x, In x (syms t) -> ~ In x angle_syms) by (intros x Hx; apply P; destruct Hs as [-> | ->]; cbn [scat_syms]; apply in_or_app; auto).
  destruct Hs as [-> | ->]; cbn [phase_value scat_a]; rewrite (ang_at f t_0 t_ex p_0 p_ex a Qa), (at_angles_param f t_0 t_ex p_0 p_ex t Qt);
    set (x := cos_angle _ _ _ _ _); pose proof (angle_unit f a (evalR f t_0) (evalR f t_ex) (evalR f p_0) (evalR f p_ex) Ha : Rabs x <= 1) as Hx;
    pose proof (hg_error (evalR f t) x (S N) Ht Hx) as E.
  - rewrite (leg_series_scale _ (hg_coef (evalR f t)) (1 / (4 * PI))) by (intros j; cbn [coef_value]; unfold c_hg, hg_coef; ring).
    unfold p_hg. replace (hg (evalR f t) x / (4 * PI) - 1 / (4 * PI) * leg_series (hg_coef (evalR f t)) (S N) x)
      with ((hg (evalR f t) x - leg_series (hg_coef (evalR f t)) (S N) x) / (4 * PI)) by (field; lra).
    rewrite Rabs_div by lra. rewrite (Rabs_pos_eq (4 * PI)) by lra. apply Rmult_le_compat_r; [|exact E]. left. apply Rinv_0_lt_compat. lra.
  - rewrite (leg_series_scale _ (hg_coef (evalR f t)) (1 / PI)) by (intros j; cbn [coef_value]; unfold c_bhg, hg_coef; ring).
    unfold b_hg. replace (hg (evalR f t) x / PI - 1 / PI * leg_series (hg_coef (evalR f t)) (S N) x)
      with ((hg (evalR f t) x - leg_series (hg_coef (evalR f t)) (S N) x) / PI) by (field; lra).
    rewrite Rabs_div by lra. rewrite (Rabs_pos_eq PI) by lra. apply Rmult_le_compat_r; [|exact E]. left. apply Rinv_0_lt_compat. lra.
Qed.
Print Assumptions C23_hg_converges.
Theorem C23_bound_vanishes : forall t, Rabs t < 1 -> is_lim_seq (hg_tail t) 0.
Proof. exact hg_tail_lim. Qed.
Print Assumptions C23_bound_vanishes.
(** the nadir-normalised function *)
Theorem C23_hg_nadirnorm_converges : forall t N a t_0 t_ex p_0 p_ex, plain (SHGn t (Some (S N)) a) ->
  exists e, legendre_expansion t_0 t_ex p_0 p_ex (SHGn t (Some (S N)) a) = Ok e /\
    forall f, 0 < Rabs (evalR f t) < 1 -> unit_a f a -> evalR f (a0 a) <> 0 ->
      Rabs (evalR (at_angles f t_0 t_ex p_0 p_ex) (phase_function (SHGn t (Some (S N)) a)) - evalR f e)
      <= hg_tail (evalR f t) (S N) / (PI * hg_nadir (evalR f t) (evalR f (a0 a))).
Proof.
  intros t N a t_0 t_ex p_0 p_ex P. pose proof PI_RGT_0 as HP. set (s := SHGn t (Some (S N)) a) in *.
  assert (B : is_basic s) by discriminate.
  destruct (basic_value t_0 t_ex p_0 p_ex s (S N) B P eq_refl ltac:(lia)) as (e & He & V). exists e. split; [exact He|]. intros f Ht Ha Ha0.
  rewrite V, ev_phase.
  assert (Qa : forall x, In x (a_syms a) -> ~ In x angle_syms) by (intros x Hx; apply P; unfold s; cbn [scat_syms]; apply in_or_app; auto).
  assert (Qt : forall x, In x (syms t) -> ~ In x angle_syms) by (intros x Hx; apply P; unfold s; cbn [scat_syms]; apply in_or_app; auto).
  assert (Q0 : forall x, In x (syms (a0 a)) -> ~ In x angle_syms) by (intros x Hx; apply Qa; unfold a_syms; apply in_or_app; auto).
  assert (PN : 0 < hg_nadir (evalR f t) (evalR f (a0 a))) by (apply hg_nadir_pos; [assumption|split; [now apply Rabs_pos_lt|apply Ha]]).
  unfold s. cbn [phase_value scat_a]. rewrite (ang_at f t_0 t_ex p_0 p_ex a Qa), (at_angles_param f t_0 t_ex p_0 p_ex t Qt), (at_angles_param f t_0 t_ex p_0 p_ex _ Q0).
  set (x := cos_angle _ _ _ _ _). pose proof (angle_unit f a (evalR f t_0) (evalR f t_ex) (evalR f p_0) (evalR f p_ex) Ha : Rabs x <= 1) as Hx.
  pose proof (hg_error (evalR f t) x (S N) (proj2 Ht) Hx) as E. set (K := hg_nadir (evalR f t) (evalR f (a0 a))) in *.
  rewrite (leg_series_scale _ (hg_coef (evalR f t)) (1 / (PI * K))) by (intros j; cbn [coef_value]; unfold c_bhgn, c_bhg, hg_coef; fold K; field; lra).
  unfold b_hg_nadirnorm, b_hg. fold K. replace (1 / K * (hg (evalR f t) x / PI) - 1 / (PI * K) * leg_series (hg_coef (evalR f t)) (S N) x)
    with ((hg (evalR f t) x - leg_series (hg_coef (evalR f t)) (S N) x) / (PI * K)) by (field; lra).
  assert (0 < PI * K) by (apply Rmult_lt_0_compat; lra).
  rewrite Rabs_div by lra. rewrite (Rabs_pos_eq (PI * K)) by lra. apply Rmult_le_compat_r; [|exact E]. left. now apply Rinv_0_lt_compat.
Qed.
Print Assumptions C23_hg_nadirnorm_converges.
Example C23_nonvacuous : plain (VHG (ESym "t") (Some 8%nat) a_vol) /\
  (let f := fun s : string => if String.eqb s "t" then 1 / 2 else 0 in Rabs (evalR f (ESym "t")) < 1 /\ unit_a f a_vol).
Proof.
  split.
  - intros x [<-|[]]. split; [discriminate|]. intros X; repeat (destruct X as [X|X]; [discriminate X|]); exact X.
  - cbn zeta. cbn [evalR]. simpl. split; [rewrite Rabs_pos_eq; lra|]. unfold unit_a, a_vol. cbn [a0 a1 a2 evalR]. rewrite !Q2R_1'.
    replace (Q2R (-1)) with (-1) by (unfold Q2R; simpl; lra). rewrite Rabs_R1, Rabs_left by lra. lra.
Qed.

(** *** C24.  HGRayleigh. *)
(** [hgr_tail t N] = 2 hg_tail t (N+2) + 4 (N+2) |t|^N *)
Theorem C24_hgrayleigh_converges : forall t N a t_0 t_ex p_0 p_ex, plain (VHGRay t (Some (S (S N))) a) ->
  exists e, legendre_expansion t_0 t_ex p_0 p_ex (VHGRay t (Some (S (S N))) a) = Ok e /\
    forall f, Rabs (evalR f t) < 1 -> unit_a f a ->
      Rabs (evalR (at_angles f t_0 t_ex p_0 p_ex) (phase_function (VHGRay t (Some (S (S N))) a)) - evalR f e)
      <= 3 / (8 * PI) * (1 / (2 + evalR f t ^ 2)) * hgr_tail (evalR f t) N.
Proof.
  intros t N a t_0 t_ex p_0 p_ex P. pose proof PI_RGT_0 as HP. set (s := VHGRay t (Some (S (S N))) a) in *.
  assert (B : is_basic s) by discriminate.
  destruct (basic_value t_0 t_ex p_0 p_ex s (S (S N)) B P eq_refl ltac:(lia)) as (e & He & V). exists e. split; [exact He|]. intros f Ht Ha.
  rewrite V, ev_phase.
  assert (Qa : forall x, In x (a_syms a) -> ~ In x angle_syms) by (intros x Hx; apply P; unfold s; cbn [scat_syms]; apply in_or_app; auto).
  assert (Qt : forall x, In x (syms t) -> ~ In x angle_syms) by (intros x Hx; apply P; unfold s; cbn [scat_syms]; apply in_or_app; auto).
  unfold s. cbn [phase_value scat_a]. rewrite (ang_at f t_0 t_ex p_0 p_ex a Qa), (at_angles_param f t_0 t_ex p_0 p_ex t Qt).
  set (x := cos_angle _ _ _ _ _). pose proof (angle_unit f a (evalR f t_0) (evalR f t_ex) (evalR f p_0) (evalR f p_ex) Ha : Rabs x <= 1) as Hx.
  pose proof (hgr_error (evalR f t) x N Ht Hx) as E.
  set (K := 3 / (8 * PI) * (1 / (2 + evalR f t ^ 2))).
  assert (PK : 0 < K). { pose proof (pow2_ge_0 (evalR f t)). unfold K. apply Rmult_lt_0_compat; apply Rdiv_lt_0_compat; lra. }
  rewrite (leg_series_scale _ (hgr_coef (evalR f t)) K) by (intros j; cbn [coef_value]; apply c_hgr_val).
  unfold p_hgrayleigh. fold K.
  replace (K * (1 + x ^ 2) * hg (evalR f t) x - K * leg_series (hgr_coef (evalR f t)) (S (S N)) x)
    with (K * ((1 + x ^ 2) * hg (evalR f t) x - leg_series (hgr_coef (evalR f t)) (S (S N)) x)) by ring.
  rewrite Rabs_mult, (Rabs_pos_eq K) by lra. apply Rmult_le_compat_l; [lra|exact E].
Qed.
Print Assumptions C24_hgrayleigh_converges.
Theorem C24_bound_vanishes : forall t, Rabs t < 1 -> is_lim_seq (hgr_tail t) 0.
Proof. exact hgr_tail_lim. Qed.
Print Assumptions C24_bound_vanishes.
Example C24_nonvacuous : plain (VHGRay (ESym "t") (Some 8%nat) a_vol).
Proof. intros x [<-|[]]. split; [discriminate|]. intros X; repeat (destruct X as [X|X]; [discriminate X|]); exact X. Qed.

(** *** Integrals over directions *)
(** [f] with the four angle symbols set to the given numbers *)
Definition dirs (f : string -> R) (t0 tex p0 pex : R) (x : string) : R :=
  if String.eqb x "theta_0" then t0 else if String.eqb x "theta_ex" then tex
  else if String.eqb x "phi_0" then p0 else if String.eqb x "phi_ex" then pex else f x.
Lemma dirs_other f t0 tex p0 pex x : ~ In x angle_syms -> dirs f t0 tex p0 pex x = f x.
Proof.
  intros H. unfold dirs.
  destruct (String.eqb_spec x "theta_0") as [->|]; [exfalso; apply H; simpl; auto|].
  destruct (String.eqb_spec x "theta_ex") as [->|]; [exfalso; apply H; simpl; auto|].
  destruct (String.eqb_spec x "phi_0") as [->|]; [exfalso; apply H; simpl; auto|].
  destruct (String.eqb_spec x "phi_ex") as [->|]; [exfalso; apply H; simpl; auto|]. reflexivity.
Qed.
Lemma dirs_param f t0 tex p0 pex e : (forall x, In x (syms e) -> ~ In x angle_syms) -> evalR (dirs f t0 tex p0 pex) e = evalR f e.
Proof. intros H. apply Elem.evalR_ext. intros x Hx. now apply dirs_other, H. Qed.
Lemma dirs_ang f t0 tex p0 pex a : (forall x, In x (a_syms a) -> ~ In x angle_syms) ->
  ang_of (dirs f t0 tex p0 pex) a = cos_angle (ev_a f a) t0 tex p0 pex.
Proof.
  intros H. unfold ang_of. change (dirs f t0 tex p0 pex "theta_0") with t0. change (dirs f t0 tex p0 pex "theta_ex") with tex.
  change (dirs f t0 tex p0 pex "phi_0") with p0. change (dirs f t0 tex p0 pex "phi_ex") with pex.
  f_equal. unfold ev_a. unfold a_syms in H. f_equal; apply dirs_param; intros x Hx; apply H; rewrite !in_app_iff; auto.
Qed.
(** parameter names do not clash with the angle symbols *)
Definition no_angles (s : scat) : Prop := forall x, In x (scat_syms s) -> ~ In x angle_syms.

(** *** C26.  Nadir hemispherical reflectance of HG_nadirnorm. *)
Theorem C26_nadir_reflectance_is_one : forall t nc a f p0,
  no_angles (SHGn t nc a) -> 0 < Rabs (evalR f t) < 1 -> 0 < Rabs (evalR f (a0 a)) <= 1 ->
  exists J : R -> R,
    (forall ph, is_RInt (fun th => evalR (dirs f 0 th p0 ph) (phase_function (SHGn t nc a)) * cos th * sin th) 0 (PI / 2) (J ph)) /\
    is_RInt J 0 (2 * PI) 1.
Proof.
  intros t nc a f p0 P Ht Ha. exists (fun _ => 1 / (2 * PI)). pose proof PI_RGT_0 as HP. split.
  - intros ph. eapply is_ext; [|apply (nadir_normalised (evalR f t) (evalR f (a0 a)) Ht Ha)]. intros th. cbv beta. f_equal. f_equal. rewrite ev_phase. cbn [phase_value].
    assert (Qa : forall x, In x (a_syms a) -> ~ In x angle_syms) by (intros x Hx; apply P; cbn [scat_syms]; apply in_or_app; auto).
    assert (Qt : forall x, In x (syms t) -> ~ In x angle_syms) by (intros x Hx; apply P; cbn [scat_syms]; apply in_or_app; auto).
    assert (Q0 : forall x, In x (syms (a0 a)) -> ~ In x angle_syms) by (intros x Hx; apply Qa; unfold a_syms; apply in_or_app; auto).
    rewrite (dirs_ang _ _ _ _ _ _ Qa), (dirs_param _ _ _ _ _ _ Qt), (dirs_param _ _ _ _ _ _ Q0).
    f_equal. unfold cos_angle, ev_a. cbn [ga0 ga1 ga2]. rewrite sin_0, cos_0. ring.
  - pose proof (is_RInt_const 0 (2 * PI) (1 / (2 * PI))) as K. eapply is_val; [exact K|]. unfold scal. cbn. unfold mult. cbn. field. lra.
Qed.
Print Assumptions C26_nadir_reflectance_is_one.
Example C26_nonvacuous : no_angles (SHGn (ESym "t") (Some 8%nat) (mk_a (ESym "a") (ENum 1) (ENum 1))) /\
  (let f := fun s : string => if String.eqb s "t" then 1 / 2 else 1 / 4 in 0 < Rabs (evalR f (ESym "t")) < 1 /\ 0 < Rabs (evalR f (ESym "a")) <= 1).
Proof.
  split.
  - intros x [<-|[<-|[]]] X; repeat (destruct X as [X|X]; [discriminate X|]); exact X.
  - cbn zeta. cbn [evalR]. simpl. split; rewrite Rabs_pos_eq; lra.
Qed.

(** *** C27.  Normalisation of the volume phase functions. *)
(** volume functions with a = [-1, 1, 1] (any a for Isotropic), |t| < 1, weights of combinations adding up to 1 *)
Fixpoint standard (f : string -> R) (s : scat) : Prop :=
  match s with
  | VIso _ => True
  | VRay a => ev_a f a = mk_gen (-1) 1 1
  | VHG t _ a | VHGRay t _ a => ev_a f a = mk_gen (-1) 1 1 /\ Rabs (evalR f t) < 1
  | LinComb cs _ => fold_right (fun c acc => standard f (snd c) /\ acc) True cs /\ fold_right (fun c acc => evalR f (fst c) + acc) 0 cs = 1
  | _ => False
  end.
Theorem C27_volume_normalised : forall s f t0 p0, no_angles s -> standard f s ->
  is_sphere (fun th ph => evalR (dirs f t0 th p0 ph) (phase_function s)) 1.
Proof.
  intros s f t0 p0. pose proof PI_RGT_0 as HP.
  assert (AB : - cos t0 * - cos t0 + sin t0 * sin t0 = 1) by (pose proof (sin2_cos2 t0) as X; unfold Rsqr in X; lra).
  assert (T : forall a e, (forall x, In x (syms e ++ a_syms a) -> ~ In x angle_syms) -> ev_a f a = mk_gen (-1) 1 1 ->
    forall th ph, evalR (dirs f t0 th p0 ph) e = evalR f e /\ ang_of (dirs f t0 th p0 ph) a = dirx (- cos t0) (sin t0) p0 th ph).
  { intros a e Q A th ph. split.
    - apply dirs_param. intros x Hx. apply Q. apply in_or_app. auto.
    - rewrite dirs_ang, A; [apply dirx_angle|]. intros x Hx. apply Q. apply in_or_app. auto. }
  induction s as [a|a|t nc a|t nc a|a|i nc a|t nc a|t nc a|cs a H] using scat_ind'; intros N S; cbn [standard] in S; try contradiction.
  - pose proof (sphere_const p_isotropic) as C. replace 1 with (4 * PI * p_isotropic) by (unfold p_isotropic; field; lra).
    eapply sphere_ext; [|exact C]. intros th ph. now rewrite ev_phase.
  - eapply sphere_ext; [|apply (sphere_rayleigh (- cos t0) (sin t0) p0 AB)].
    intros th ph. rewrite ev_phase. cbn [phase_value]. now rewrite (proj2 (T a (ENum 0) N S th ph)).
  - destruct S as [S1 S2]. eapply sphere_ext; [|apply (sphere_hg (- cos t0) (sin t0) p0 AB _ S2)].
    intros th ph. rewrite ev_phase. cbn [phase_value]. destruct (T a t N S1 th ph) as [-> ->]. reflexivity.
  - destruct S as [S1 S2]. eapply sphere_ext; [|apply (sphere_hgrayleigh (- cos t0) (sin t0) p0 AB _ S2)].
    intros th ph. rewrite ev_phase. cbn [phase_value]. destruct (T a t N S1 th ph) as [-> ->]. reflexivity.
  - destruct S as [S1 S2]. rewrite <- S2.
    assert (W : forall c th ph, In c cs -> evalR (dirs f t0 th p0 ph) (fst c) = evalR f (fst c)).
    { intros c th ph Hc. apply dirs_param. intros x Hx. apply N. cbn [scat_syms]. apply in_flat_map. exists c. split; [assumption|]. apply in_or_app. auto. }
    assert (NM : forall c, In c cs -> no_angles (snd c)).
    { intros c Hc x Hx. apply N. cbn [scat_syms]. apply in_flat_map. exists c. split; [assumption|]. apply in_or_app. auto. }
    clear N S2. eapply sphere_ext; [intros th ph; symmetry; apply C28_phase_linear|]. cbv beta.
    induction cs as [|c cs IH].
    + cbn [fold_right]. unfold lin. cbn [fold_right]. pose proof (sphere_const 0) as Z. rewrite Rmult_0_r in Z. exact Z.
    + cbn [fold_right] in S1 |- *. destruct S1 as [Sc S1]. inversion H as [|? ? Hc Hcs]; subst.
      specialize (IH Hcs S1 (fun d th ph Hd => W d th ph (or_intror Hd)) (fun d Hd => NM d (or_intror Hd))).
      specialize (Hc (NM c (or_introl eq_refl)) Sc).
      pose proof (sphere_lin _ _ (evalR f (fst c)) 1 _ _ Hc IH) as L. rewrite Rmult_1_r, Rmult_1_l in L.
      eapply sphere_ext; [|exact L]. intros th ph. cbv beta. unfold lin. cbn [fold_right]. rewrite W by (left; reflexivity). ring.
Qed.
Print Assumptions C27_volume_normalised.
Example C27_nonvacuous :
  let s := LinComb ((ESym "w", VHG (ESym "t") (Some 8%nat) a_vol) :: (EAdd (ENum 1) (EMul (ENum (-1)) (ESym "w")), VRay a_vol) :: nil) a_vol in
  let f := fun s : string => if String.eqb s "t" then 1 / 2 else 1 / 4 in no_angles s /\ standard f s.
Proof.
  cbn zeta. assert (Q : forall f, ev_a f a_vol = mk_gen (-1) 1 1).
  { intros f. unfold ev_a, a_vol. cbn [a0 a1 a2 evalR]. rewrite Q2R_1'. f_equal. unfold Q2R. simpl. lra. }
  split.
  - intros x H. simpl in H. destruct H as [<-|[<-|[<-|[]]]]; intros X; repeat (destruct X as [X|X]; [discriminate X|]); exact X.
  - cbn [standard fold_right snd fst]. rewrite !Q. repeat split.
    + cbn [evalR]. simpl. rewrite Rabs_pos_eq; lra.
    + cbn [evalR]. simpl. unfold Q2R. simpl. lra.
Qed.
