(** The two evaluation backends: C41, C65. *)
From Verif Require Export Backends.
From Coq Require Import Lia List.
Open Scope string_scope.
Open Scope nat_scope.
Open Scope list_scope.

(** ** Specification *)
(** get_lambda_backend() *)
Definition runs_on (w : world) (name : string) : Prop := snd (step w OGetBackend) = RetStr name.
(** two objects (each in its own process state) with the same configuration; nothing is said about the
    backend or about the order in which the parameters were set *)
Definition same_but_backend (w1 : world) (o1 : nat) (w2 : world) (o2 : nat) : Prop :=
  exists r1 r2, obj (w_heap w1) o1 = Ok r1 /\ obj (w_heap w2) o2 = Ok r2 /\
    (** R.V, R.SRF: the same functions *)
    scat_at (w_heap w1) (r_V r1) = scat_at (w_heap w2) (r_V r2) /\ scat_at (w_heap w1) (r_SRF r1) = scat_at (w_heap w2) (r_SRF r2) /\
    (** int_Q, sig0, dB, I0; no precalculated coefficients *)
    r_intQ r1 = r_intQ r2 /\ r_sig0 r1 = r_sig0 r2 /\ r_dB r1 = r_dB r2 /\
    r_fn_input r1 = None /\ r_fn_input r2 = None /\ r_fnevals_input r1 = None /\ r_fnevals_input r2 = None /\
    deref (w_heap w1) (r_I0 r1) = deref (w_heap w2) (r_I0 r2) /\
    (** the definitions of tau, omega, NormBRDF, bsf *)
    (forall p, cdef_of (w_heap w1) (r_def r1 p) = cdef_of (w_heap w2) (r_def r2 p)) /\
    (** mode and fixed angles, and the values of the angles *)
    r_geom r1 = r_geom r2 /\ (forall a, snd (step w1 (OReadAngle o1 a)) = snd (step w2 (OReadAngle o2 a))) /\
    (** param_dict, as a mapping *)
    (exists d1 d2, snd (step w1 (OParamDict o1)) = RetDict d1 /\ snd (step w2 (OParamDict o2)) = RetDict d2 /\ forall s, dget d1 s = dget d2 s).
(** tau was set to a value, or reading it gives an array with at least one axis.  (Otherwise tau is a string
    evaluated to a single number: under sympy a Python float, under symengine an array with no axes, and the
    ``tau == 0'' shortcut of calc() treats them differently.) *)
Definition tau_definite (w : world) (o : nat) : Prop :=
  (exists r v, obj (w_heap w) o = Ok r /\ r_def r Tau = DVal v) \/ forall t, obs_param w o Tau t -> shp t <> [].

(** as stated: the backend makes no difference to the outcome of calc() *)
Definition same_outcome (x y : out) : Prop :=
  (forall a, x = RetArr a -> exists b, y = RetArr b /\ same_arr a b) /\ (forall b, y = RetArr b -> exists a, x = RetArr a /\ same_arr a b).
Definition C41_intended : Prop := forall w1 o1 w2 o2,
  tidy w1 (OCalc o1 nil) -> tidy w2 (OCalc o2 nil) -> runs_on w1 "sympy" -> runs_on w2 "symengine" -> same_but_backend w1 o1 w2 o2 ->
  names_current w1 o1 -> names_current w2 o2 -> tau_definite w1 o1 ->
  same_outcome (snd (step w1 (OCalc o1 nil))) (snd (step w2 (OCalc o2 nil))).
(** weaker: if both return an array, the numbers are the same *)
Definition C41_values_intended : Prop := forall w1 o1 w2 o2 a1 a2,
  tidy w1 (OCalc o1 nil) -> tidy w2 (OCalc o2 nil) -> runs_on w1 "sympy" -> runs_on w2 "symengine" -> same_but_backend w1 o1 w2 o2 ->
  names_current w1 o1 -> names_current w2 o2 -> tau_definite w1 o1 ->
  snd (step w1 (OCalc o1 nil)) = RetArr a1 -> snd (step w2 (OCalc o2 nil)) = RetArr a2 ->
  forall k i, k < nrows a2 -> valid_idx (shp (row a2 k)) i -> bget (row a1 k) i = get (row a2 k) i.

(** ** Proofs *)
Lemma runs_on_be w name : runs_on w name -> h_be (w_heap w) = (if String.eqb name "symengine" then Symengine else Sympy).
Proof.
  unfold runs_on. unfold step, as_out, gets. destruct (h_be (w_heap w)); cbn [backend_str fst snd]; intros H; injection H as <-; reflexivity.
Qed.
Lemma but_backend_of w1 q1 o1 w2 q2 o2 : good w1 q1 -> good w2 q2 -> same_but_backend w1 o1 w2 o2 ->
  exists r1 r2 d1 d2, obj (w_heap w1) o1 = Ok r1 /\ obj (w_heap w2) o2 = Ok r2 /\
    r_fn_input r1 = None /\ r_fnevals_input r1 = None /\ r_fn_input r2 = None /\ r_fnevals_input r2 = None /\
    NoDup (dkeys d1) /\ NoDup (dkeys d2) /\ but_backend (conf (w_heap w1) r1) (conf (w_heap w2) r2) d1 d2.
Proof.
  intros G1 G2 (r1 & r2 & H1 & H2 & EV & ES & Eq & Es & Ed & Ef1 & Ef2 & N1 & N2 & Ei & Edf & Egm & Ea & d1 & d2 & P1 & P2 & M).
  exists r1, r2, d1, d2. do 6 (split; [assumption|]).
  apply (obs_dict_conf w1 _ o1 r1 G1 H1) in P1. apply (obs_dict_conf w2 _ o2 r2 G2 H2) in P2.
  assert (R : forall a, p_read (conf (w_heap w2) r2) a = p_read (conf (w_heap w1) r1) a).
  { intros a. specialize (Ea a). rewrite (read_eval w1 _ G1 (OReadAngle o1 a) I), (read_eval w2 _ G2 (OReadAngle o2 a) I) in Ea.
    rewrite (eval_angle _ _ _ _ H1), (eval_angle _ _ _ _ H2) in Ea. unfold outA in Ea. destruct (p_read _ a), (p_read _ a); congruence. }
  split; [rewrite (p_params_keys _ _ P1); cbn [conf c_params]; rewrite dkeys_map; exact (proj1 (proj2 (proj1 (good_keys _ _ G1)) o1 r1 H1))|].
  split; [rewrite (p_params_keys _ _ P2); cbn [conf c_params]; rewrite dkeys_map; exact (proj1 (proj2 (proj1 (good_keys _ _ G2)) o2 r2 H2))|].
  constructor; try (symmetry; assumption); try assumption; try (cbn [conf c_V c_SRF c_intQ c_sig0 c_dB c_I0 c_geom]; congruence).
  intros p. cbn [conf c_def]. symmetry. apply Edf.
Qed.
Lemma tau_num h r v : c_def (conf h r) Tau = CVal (Ok v) true -> shp v = [].
Proof.
  cbn [conf c_def]. unfold cdef_of. destruct (r_def r Tau) as [e|e|[x|n]]; intros H; try discriminate.
  cbn [deref] in H. injection H as <-. reflexivity.
Qed.
Lemma tau_def w q o r : good w q -> obj (w_heap w) o = Ok r -> tau_definite w o ->
  (exists v n, c_def (conf (w_heap w) r) Tau = CVal v n) \/ forall t, p_val (conf (w_heap w) r) Tau = Ok t -> shp t <> [].
Proof.
  intros G Hr [(r' & v & Hr' & E)|H].
  - left. rewrite Hr in Hr'. injection Hr' as <-. cbn [conf c_def]. rewrite E. cbn [cdef_of]. eauto.
  - right. intros t Ht. apply H. now apply (obs_param_conf w q o r G Hr).
Qed.

(** *** C41, values of calc().  Whenever both backends return an array, both have the same rows, the shape under
    sympy can be broadcast to the one under symengine, and all numbers are the same -- provided that the
    interaction contribution, if it is calculated, is not affected by the axis confusion of C21 ([flat]). *)
Theorem C41_values_partial : forall w1 o1 w2 o2 iq sg db a1 a2,
  tidy w1 (OCalc o1 nil) -> tidy w2 (OCalc o2 nil) -> runs_on w2 "symengine" -> same_but_backend w1 o1 w2 o2 ->
  obs_flags w1 o1 iq sg db -> (iq = true -> flat w1 o1 /\ flat w2 o2) -> tau_definite w1 o1 ->
  snd (step w1 (OCalc o1 nil)) = RetArr a1 -> snd (step w2 (OCalc o2 nil)) = RetArr a2 ->
  nrows a1 = nrows a2 /\ ble (shp (row a1 0)) (shp (row a2 0)) /\
  forall k i, k < nrows a2 -> valid_idx (shp (row a2 k)) i -> bget (row a1 k) i = get (row a2 k) i.
Proof.
  intros w1 o1 w2 o2 iq sg db a1 a2 T1 T2 R2 SB (rf & Hf & Q & _) FL TD E1 E2.
  pose proof (tidy_good _ _ T1) as G1. pose proof (tidy_good _ _ T2) as G2.
  destruct (but_backend_of _ _ _ _ _ _ G1 G2 SB) as (r1 & r2 & d1 & d2 & H1 & H2 & N1 & M1 & N2 & M2 & K1 & K2 & B).
  rewrite H1 in Hf. injection Hf as <-.
  rewrite (calc_nil _ _ _ _ G1 (ex_intro _ r1 (conj H1 (conj eq_refl eq_refl)))) in E1.
  rewrite (calc_nil _ _ _ _ G2 (ex_intro _ r2 (conj H2 (conj eq_refl eq_refl)))) in E2.
  destruct (p_calc (conf (w_heap w1) r1) _) as [b1|] eqn:C1 in E1; [|discriminate E1]. destruct (p_calc (conf (w_heap w2) r2) _) as [b2|] eqn:C2 in E2; [|discriminate E2].
  cbn [outA] in E1, E2. injection E1 as ->. injection E2 as ->.
  destruct (tidy_inv _ _ T1) as (F1 & _). destruct (tidy_inv _ _ T2) as (F2 & _).
  pose proof (runs_on_be _ _ R2) as Hbe. cbn [String.eqb Ascii.eqb Bool.eqb] in Hbe.
  assert (HF : c_intQ (conf (w_heap w1) r1) = true -> forall first a a', p_Fint (conf (w_heap w1) r1) (fnev_next (w_heap w1) r1) first = Ok a ->
    p_Fint (conf (w_heap w2) r2) (fnev_next (w_heap w2) r2) first = Ok a' -> forall i, bget a i = bget a' i).
  { intros Hq. assert (iq = true) by (cbn [conf c_intQ] in Hq; congruence). destruct (FL H) as [FL1 FL2]. intros first a a' Fa Fa'.
    eapply (Fint_like w1 _ o1 r1 w2 _ o2 r2); eassumption. }
  pose proof (calc_ble _ _ _ _ _ _ B a1 a2 K1 K2 Hbe C1 C2) as Bl.
  destruct (calc_like _ _ _ _ _ _ B HF (tau_num _ _) (tau_def _ _ _ _ G1 H1 TD) a1 a2 C1 C2 Bl) as [L1 L2].
  split; [exact L1|]. split; [exact Bl|exact L2].
Qed.
Print Assumptions C41_values_partial.

(** *** C41, surface(), volume(), interaction(): all numbers agree whenever both return an array *)
Lemma convert_like C C' kw kw' v v' a a' : but_backend C C' kw kw' -> (forall i, bget v i = bget v' i) ->
  p_convert C v = Ok a -> p_convert C' v' = Ok a' -> forall i, bget a i = bget a' i.
Proof.
  intros B L H H' i. unfold p_convert, p_mu0 in *. rewrite (bb_sig0 _ _ _ _ B), (bb_dB _ _ _ _ B), (bb_I0 _ _ _ _ B), (bb_read _ _ _ _ B) in H'.
  destruct (c_sig0 C) eqn:S.
  - destruct (p_read C T0) as [t0|]; [cbn [rbind] in H, H'|discriminate H].
    destruct (c_I0 C) as [i0|]; [cbn [rbind] in H, H'|discriminate H].
    rewrite (k_convert_el _ _ _ _ _ _ i H), (k_convert_el _ _ _ _ _ _ i H'), L. reflexivity.
  - rewrite (k_convert_el _ _ _ _ _ _ i H), (k_convert_el _ _ _ _ _ _ i H'), L. reflexivity.
Qed.
Theorem C41_direct : forall w1 o1 w2 o2, same_but_backend w1 o1 w2 o2 ->
  (forall a1 a2, good w1 (OSurface o1 nil) -> good w2 (OSurface o2 nil) ->
     snd (step w1 (OSurface o1 nil)) = RetArr a1 -> snd (step w2 (OSurface o2 nil)) = RetArr a2 -> forall i, bget a1 i = bget a2 i) /\
  (forall a1 a2, good w1 (OVolume o1 nil) -> good w2 (OVolume o2 nil) ->
     snd (step w1 (OVolume o1 nil)) = RetArr a1 -> snd (step w2 (OVolume o2 nil)) = RetArr a2 -> forall i, bget a1 i = bget a2 i).
Proof.
  intros w1 o1 w2 o2 SB. split; intros a1 a2 G1 G2 E1 E2 i;
  destruct (but_backend_of _ _ _ _ _ _ G1 G2 SB) as (r1 & r2 & d1 & d2 & H1 & H2 & N1 & M1 & N2 & M2 & K1 & K2 & B).
  - rewrite (surface_nil _ _ _ _ G1 (ex_intro _ r1 (conj H1 (conj eq_refl eq_refl)))) in E1.
    rewrite (surface_nil _ _ _ _ G2 (ex_intro _ r2 (conj H2 (conj eq_refl eq_refl)))) in E2.
    destruct (p_surface (conf (w_heap w1) r1)) as [v1|] eqn:S1; [cbn [rbind] in E1|discriminate E1].
    destruct (p_surface (conf (w_heap w2) r2)) as [v2|] eqn:S2; [cbn [rbind] in E2|discriminate E2].
    destruct (p_convert _ v1) as [b1|] eqn:C1; [|discriminate E1]. destruct (p_convert _ v2) as [b2|] eqn:C2; [|discriminate E2].
    cbn [outA] in E1, E2. injection E1 as ->. injection E2 as ->.
    exact (convert_like _ _ _ _ _ _ _ _ B (surface_like _ _ _ _ B _ _ S1 S2) C1 C2 i).
  - rewrite (volume_nil _ _ _ _ G1 (ex_intro _ r1 (conj H1 (conj eq_refl eq_refl)))) in E1.
    rewrite (volume_nil _ _ _ _ G2 (ex_intro _ r2 (conj H2 (conj eq_refl eq_refl)))) in E2.
    destruct (p_volume (conf (w_heap w1) r1)) as [v1|] eqn:S1; [cbn [rbind] in E1|discriminate E1].
    destruct (p_volume (conf (w_heap w2) r2)) as [v2|] eqn:S2; [cbn [rbind] in E2|discriminate E2].
    destruct (p_convert _ v1) as [b1|] eqn:C1; [|discriminate E1]. destruct (p_convert _ v2) as [b2|] eqn:C2; [|discriminate E2].
    cbn [outA] in E1, E2. injection E1 as ->. injection E2 as ->.
    exact (convert_like _ _ _ _ _ _ _ _ B (volume_like _ _ _ _ B _ _ S1 S2) C1 C2 i).
Qed.
Print Assumptions C41_direct.
Theorem C41_interaction_partial : forall w1 o1 w2 o2 a1 a2,
  tidy w1 (OInteraction o1 nil) -> tidy w2 (OInteraction o2 nil) -> same_but_backend w1 o1 w2 o2 -> flat w1 o1 -> flat w2 o2 ->
  snd (step w1 (OInteraction o1 nil)) = RetArr a1 -> snd (step w2 (OInteraction o2 nil)) = RetArr a2 -> forall i, bget a1 i = bget a2 i.
Proof.
  intros w1 o1 w2 o2 a1 a2 T1 T2 SB FL1 FL2 E1 E2 i. pose proof (tidy_good _ _ T1) as G1. pose proof (tidy_good _ _ T2) as G2.
  destruct (but_backend_of _ _ _ _ _ _ G1 G2 SB) as (r1 & r2 & d1 & d2 & H1 & H2 & N1 & M1 & N2 & M2 & K1 & K2 & B).
  rewrite (interaction_nil _ _ _ _ G1 (ex_intro _ r1 (conj H1 (conj eq_refl eq_refl)))) in E1.
  rewrite (interaction_nil _ _ _ _ G2 (ex_intro _ r2 (conj H2 (conj eq_refl eq_refl)))) in E2.
  destruct (p_interaction (conf (w_heap w1) r1) _) as [v1|] eqn:S1; [cbn [rbind] in E1|discriminate E1].
  destruct (p_interaction (conf (w_heap w2) r2) _) as [v2|] eqn:S2; [cbn [rbind] in E2|discriminate E2].
  destruct (p_convert _ v1) as [b1|] eqn:C1; [|discriminate E1]. destruct (p_convert _ v2) as [b2|] eqn:C2; [|discriminate E2].
  cbn [outA] in E1, E2. injection E1 as ->. injection E2 as ->.
  destruct (tidy_inv _ _ T1) as (F1 & _). destruct (tidy_inv _ _ T2) as (F2 & _).
  apply (convert_like _ _ _ _ _ _ _ _ B) with (2 := C1) (3 := C2).
  apply (interaction_like _ _ _ _ B) with (2 := S1) (3 := S2).
  intros first a a' Fa Fa'. eapply (Fint_like w1 _ o1 r1 w2 _ o2 r2); eassumption.
Qed.
Print Assumptions C41_interaction_partial.

(** *** C65.  For the shapes of C60, calc() returns the same array whatever the backends are. *)
Lemma fit_flat w o T : inputs_fit w o T -> angles_lead w o T -> flat w o.
Proof.
  intros (IA & IP & _ & d & Ed & Fd) (L & F). exists (length T). split; [|split; [|split]].
  - intros b a H. destruct (IA b) as (a' & H' & Bl). unfold obs_angle in *. rewrite H in H'. injection H' as <-. now apply ble_length.
  - intros a H. destruct (IP Tau) as (a' & H' & Bl). unfold obs_param in *. rewrite H in H'. injection H' as <-. now apply ble_length.
  - intros d' k a H Hk. rewrite Ed in H. injection H as <-. eapply ble_length, Fd, Hk.
  - destruct F as [F|F]; [now left|right; now split].
Qed.
(** everything [C60_accepted_shapes] asks for *)
Definition acceptable (w : world) (o : nat) (iq : bool) (T : list nat) : Prop :=
  tidy w (OCalc o nil) /\ names_current w o /\ own_fn w o /\ (exists sg db, obs_flags w o iq sg db) /\
  (exists V SRF, obs_fun w o WV V /\ obs_fun w o WSRF SRF /\ evaluable w o V /\ evaluable w o SRF) /\ names_apart w o /\
  inputs_fit w o T /\ carried_by_common w o T /\ (iq = true -> angles_lead w o T).
Lemma acceptable_returns w o iq T : acceptable w o iq T -> exists a, snd (step w (OCalc o nil)) = RetArr a /\ shp (row a 0) = T.
Proof.
  intros (Ti & NC & OF & (sg & db & Fl) & (V & SRF & OV & OS & EV & ES) & NA & Fit & Car & Ld).
  now apply (C60_accepted_shapes w o iq sg db V SRF T).
Qed.
Lemma calc_shape w o r a : good w (OCalc o nil) -> obj (w_heap w) o = Ok r -> snd (step w (OCalc o nil)) = RetArr a ->
  p_calc (conf (w_heap w) r) (fnev_next (w_heap w) r) = Ok a /\ shp a = shp (row a 0) ++ [nrows a].
Proof.
  intros G Hr E. rewrite (calc_nil _ _ _ _ G (ex_intro _ r (conj Hr (conj eq_refl eq_refl)))) in E.
  destruct (p_calc _ _) as [b|] eqn:C; [|discriminate E]. cbn [outA] in E. injection E as ->. split; [reflexivity|].
  destruct (p_calc_rows _ _ _ C) as (tau & b & is & i0 & mu0 & iv & ii & _ & _ & _ & _ & _ & _ & _ & _ & _ & Sa & _).
  rewrite (row_shp _ _ _ _ Sa). unfold nrows. rewrite Sa at 2. rewrite last_last. exact Sa.
Qed.
Lemma valid_snoc_inv s n i : valid_idx (s ++ [n]) i -> exists j k, i = j ++ [k] /\ valid_idx s j /\ k < n.
Proof.
  revert i. induction s as [|m s IH]; intros [|x i] H; cbn [app] in H; try (now destruct H).
  - destruct H as [H1 H2]. destruct i; [|now destruct H2]. exists [], x. repeat split; auto.
  - destruct H as [H1 H2]. destruct (IH i H2) as (j & k & -> & Hj & Hk). exists (x :: j), k. repeat split; auto.
Qed.
Theorem C65_backend_agreement : forall w1 o1 w2 o2 iq T,
  same_but_backend w1 o1 w2 o2 -> acceptable w1 o1 iq T -> acceptable w2 o2 iq T -> tau_definite w1 o1 ->
  exists a1 a2, snd (step w1 (OCalc o1 nil)) = RetArr a1 /\ snd (step w2 (OCalc o2 nil)) = RetArr a2 /\ same_arr a1 a2.
Proof.
  intros w1 o1 w2 o2 iq T SB A1 A2 TD.
  destruct (acceptable_returns _ _ _ _ A1) as (a1 & E1 & S1). destruct (acceptable_returns _ _ _ _ A2) as (a2 & E2 & S2).
  exists a1, a2. split; [exact E1|]. split; [exact E2|].
  destruct A1 as (T1 & _ & _ & (sg & db & (rf & Hf & Q & _)) & _ & _ & Fit1 & _ & Ld1). destruct A2 as (T2 & _ & _ & _ & _ & _ & Fit2 & _ & Ld2).
  pose proof (tidy_good _ _ T1) as G1. pose proof (tidy_good _ _ T2) as G2.
  destruct (but_backend_of _ _ _ _ _ _ G1 G2 SB) as (r1 & r2 & d1 & d2 & H1 & H2 & N1 & M1 & N2 & M2 & K1 & K2 & B).
  rewrite H1 in Hf. injection Hf as <-.
  destruct (calc_shape _ _ _ _ G1 H1 E1) as [C1 X1]. destruct (calc_shape _ _ _ _ G2 H2 E2) as [C2 X2].
  destruct (tidy_inv _ _ T1) as (F1 & _). destruct (tidy_inv _ _ T2) as (F2 & _).
  assert (HF : c_intQ (conf (w_heap w1) r1) = true -> forall first a a', p_Fint (conf (w_heap w1) r1) (fnev_next (w_heap w1) r1) first = Ok a ->
    p_Fint (conf (w_heap w2) r2) (fnev_next (w_heap w2) r2) first = Ok a' -> forall i, bget a i = bget a' i).
  { intros Hq. assert (iq = true) by (cbn [conf c_intQ] in Hq; congruence). 
    assert (FL1 : flat w1 o1) by (eapply fit_flat; eauto). assert (FL2 : flat w2 o2) by (eapply fit_flat; eauto). intros first a a' Fa Fa'.
    eapply (Fint_like w1 _ o1 r1 w2 _ o2 r2); eassumption. }
  assert (Bl : ble (shp (row a1 0)) (shp (row a2 0))) by (rewrite S1, S2; apply ble_refl).
  destruct (calc_like _ _ _ _ _ _ B HF (tau_num _ _) (tau_def _ _ _ _ G1 H1 TD) a1 a2 C1 C2 Bl) as [L1 L2].
  rewrite S1 in X1. rewrite S2 in X2. rewrite L1 in X1. split; [congruence|].
  intros i Hi. rewrite X1 in Hi. destruct (valid_snoc_inv _ _ _ Hi) as (j & k & -> & Hj & Hk).
  assert (Sk : forall k, shp (row a2 k) = T) by (intros k'; exact (row_shp _ _ _ k' X2)).
  specialize (L2 k j Hk). rewrite Sk in L2. specialize (L2 Hj). unfold bget in L2. rewrite (row_shp _ _ _ k X1) in L2. 
  rewrite proj_valid in L2 by exact Hj. exact L2.
Qed.
Print Assumptions C65_backend_agreement.
