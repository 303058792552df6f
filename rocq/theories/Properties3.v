(** Property theorems, part 3: the values of the direct contributions (C16-C18, C47, C48).
    Vocabulary as in Properties2; [point], [surface_value], ... are the documented formulas (Spec.v),
    [phase_value] the documented scattering functions (SpecScat.v). *)
From Verif Require Import Formula ScatEl PhaseVal.
Open Scope nat_scope.
Open Scope string_scope.
Open Scope list_scope.

(** *** C47.  At every position where the inputs are finite numbers, cosines positive and tau >= 0,
    the surface and volume rows of calc() are the documented formulas (Spec.v), in the units chosen by
    sig0 and dB. *)
Theorem C47_direct_contributions : forall w o kw a iq sg db i x,
  let w' := fst (step w (OCalc o kw)) in
  good w (OCalc o kw) -> snd (step w (OCalc o kw)) = RetArr a -> obs_flags w' o iq sg db ->
  valid_idx (shp (row a 0)) i -> at_point w' o i x ->
  (0 < cos (p_t0 x))%R -> (0 < cos (p_tex x))%R -> (0 <= p_tau x)%R -> (sg = true -> p_I0 x <> 0%R) ->
  get (row a 1) i = in_units db (surface_value x * unit_factor sg x) /\
  get (row a 2) i = in_units db (volume_value x * unit_factor sg x).
Proof.
  intros w o kw a iq sg db i x w' G E Fl V P H0 H1 Ht Hi0.
  destruct (eval_after w (OCalc o kw) o kw a eq_refl G E) as (C & fe & Hc & Hp). cbn beta iota in Hp. fold w' in Hc.
  destruct (conf_flags _ _ _ _ _ _ _ Hc Fl) as (F1 & F2 & F3).
  assert (G' : good w' (OCalc o [])) by (apply good_next; [assumption|]; intros J; apply adm_nil).
  destruct (calc_direct w' _ o C fe G' Hc i x P H0 H1 sg F2 Hi0 Ht a Hp V) as (A & B & _). rewrite F3 in *. auto.
Qed.
Print Assumptions C47_direct_contributions.

(** *** C48.  V.calc and SRF.calc are the documented functions.
    [named w o i f]: at position [i] the four angles of the object and its parameters have the values
    that [f] gives to their names. *)
Definition named (w : world) (o : nat) (i : list nat) (f : string -> R) : Prop :=
  (forall a, obs_angle w o T0 a -> bget a i = Fin (f "theta_0")) /\
  (forall a, obs_angle w o TEx a -> bget a i = Fin (f "theta_ex")) /\
  (forall a, obs_angle w o P0 a -> bget a i = Fin (f "phi_0")) /\
  (forall a, obs_angle w o PEx a -> bget a i = Fin (f "phi_ex")) /\
  (forall d k a, snd (step w (OParamDict o)) = RetDict d -> dget d k = Some a -> bget a i = Fin (f k)).
(** R.V, R.SRF *)
Definition obs_fun (w : world) (o : nat) (x : which) (s : scat) : Prop :=
  exists r, obj (w_heap w) o = Ok r /\ scat_at (w_heap w) (scat_id r x) = Ok s.

Lemma env_at_fin w q o C fe i f t0 tex p0 pex d s : good w q -> at_conf w o C fe -> named w o i f ->
  p_read C T0 = Ok t0 -> p_read C TEx = Ok tex -> p_read C P0 = Ok p0 -> p_read C PEx = Ok pex -> p_params C = Ok d ->
  In s (angle_names ++ dkeys d) -> env_at t0 tex p0 pex d i s = Fin (f s).
Proof.
  intros G Hc (N1 & N2 & N3 & N4 & N5) R1 R2 R3 R4 Rd Hs. unfold env_at.
  apply (c_angle w q o C fe G Hc) in R1, R2, R3, R4. apply (c_dict w q o C fe G Hc) in Rd.
  destruct (String.eqb_spec s "theta_0") as [->|E1]; [auto|]. destruct (String.eqb_spec s "theta_ex") as [->|E2]; [auto|].
  destruct (String.eqb_spec s "phi_0") as [->|E3]; [auto|]. destruct (String.eqb_spec s "phi_ex") as [->|E4]; [auto|].
  destruct (dget d s) as [a|] eqn:Ed; [eapply N5; eassumption|]. exfalso.
  apply in_app_or in Hs. destruct Hs as [Hs|Hs].
  - unfold angle_names in Hs. simpl in Hs. destruct Hs as [<-|[<-|[<-|[<-|[]]]]]; congruence.
  - clear -Ed Hs. induction d as [|[k v] d IH]; [destruct Hs|]. simpl in *. destruct (String.eqb_spec s k); [discriminate|].
    destruct Hs as [Hs|Hs]; [congruence|]. auto.
Qed.
Theorem C48_documented_phase_functions : forall w q o x s v i f,
  good w q -> obs_scat w o x v -> obs_fun w o x s -> named w o i f -> ok_scat f s ->
  bget v i = Fin (phase_value f s).
Proof.
  intros w q o x s v i f G Hv (r & Hr & Hs) N O.
  assert (Hc : at_conf w o (conf (w_heap w) r) (fnev_next (w_heap w) r)) by (exists r; auto).
  apply (c_scat w q o _ _ G Hc) in Hv.
  destruct (p_scat_el _ _ _ Hv) as (t0 & tex & p0 & pex & d & s' & R1 & R2 & R3 & R4 & Rd & Es & Inc & E).
  assert (s' = s) by (destruct x; simpl in *; congruence). subst s'.
  rewrite E, (evalX_Fin _ _ f).
  - now rewrite ev_phase.
  - intros y Hy. eapply env_at_fin; try eassumption. now apply Inc.
  - now apply wd_phase.
Qed.
Print Assumptions C48_documented_phase_functions.

(** *** C17.  bsf interpolates between the covered and the bare surface. *)
(** R.bsf = b; R.calc() *)
Definition calc_with_bsf (w : world) (o : nat) (b : R) : out :=
  snd (step (fst (step w (OSetDef o Bsf (DVal (PNum (Fin b)))))) (OCalc o [])).
Lemma calc_after_bsf w o b C fe : good w (OCalc o []) -> at_conf w o C fe ->
  calc_with_bsf w o b = outA (p_calc (bsf_at C b) fe).
Proof.
  intros G Hc. unfold calc_with_bsf. destruct (at_set_def w o Bsf (DVal (PNum (Fin b))) C fe Hc) as [H1 _].
  apply calc_nil; [|exact H1]. apply good_next.
  - eapply good_other; [exact G|]. intros J. exact I.
  - intros J. apply adm_nil.
Qed.
Theorem C17_affine_in_bsf : forall w o b iq sg a0 a1,
  good w (OCalc o []) -> obs_flags w o iq sg false ->
  calc_with_bsf w o 0 = RetArr a0 -> calc_with_bsf w o 1 = RetArr a1 ->
  exists a, calc_with_bsf w o b = RetArr a /\ shp a = shp a0 /\ nrows a = (if iq then 4 else 3) /\
    forall k i, k < nrows a -> valid_idx (shp (row a k)) i ->
      forall covered bare, get (row a0 k) i = Fin covered -> get (row a1 k) i = Fin bare ->
        get (row a k) i = Fin ((1 - b) * covered + b * bare)%R.
Proof.
  intros w o b iq sg a0 a1 G Fl E0 E1. destruct Fl as (r & Hr & F1 & F2 & F3).
  set (C := conf (w_heap w) r). set (fe := fnev_next (w_heap w) r).
  assert (Hc : at_conf w o C fe) by (exists r; auto).
  rewrite (calc_after_bsf _ _ _ C fe G Hc) in E0. rewrite (calc_after_bsf _ _ _ C fe G Hc) in E1. rewrite (calc_after_bsf _ _ _ C fe G Hc).
  destruct (p_calc (bsf_at C 0) fe) as [u0|] eqn:U0; [|discriminate E0]. destruct (p_calc (bsf_at C 1) fe) as [u1|] eqn:U1; [|discriminate E1].
  cbn [outA] in E0, E1. inversion E0; subst u0. inversion E1; subst u1.
  destruct (p_calc_affine C fe b a0 a1 F3 U0 U1) as (a & Ha & S & Nr & H).
  exists a. rewrite Ha. split; [reflexivity|]. split; [assumption|].
  assert (En : nrow C = if iq then 4 else 3) by (unfold nrow, C; simpl; now rewrite F1).
  split; [congruence|]. intros k i Hk Vi c0 c1 X0 X1. rewrite Nr in Hk. exact (H k i Hk Vi c0 c1 X0 X1).
Qed.
Print Assumptions C17_affine_in_bsf.

(** bsf = 1 (at one position, or everywhere): no volume contribution, the surface contribution of
    bare soil, and no interaction contribution unless that contribution is not a number at all. *)
Theorem C17_bare_soil : forall w o kw a iq sg db i x,
  let w' := fst (step w (OCalc o kw)) in
  good w (OCalc o kw) -> snd (step w (OCalc o kw)) = RetArr a -> obs_flags w' o iq sg db ->
  valid_idx (shp (row a 0)) i -> at_point w' o i x ->
  (0 < cos (p_t0 x))%R -> (0 < cos (p_tex x))%R -> (0 <= p_tau x)%R -> (sg = true -> p_I0 x <> 0%R) ->
  p_bsfr x = 1%R ->
  get (row a 1) i = in_units db (bare_value x * unit_factor sg x) /\
  get (row a 2) i = in_units db 0 /\
  (iq = true -> get (row a 3) i = in_units db 0 \/ get (row a 3) i = NaN).
Proof.
  intros w o kw a iq sg db i x w' G E Fl V P H0 H1 Ht Hi0 B.
  destruct (eval_after w (OCalc o kw) o kw a eq_refl G E) as (C & fe & Hc & Hp). cbn beta iota in Hp. fold w' in Hc.
  destruct (conf_flags _ _ _ _ _ _ _ Hc Fl) as (F1 & F2 & F3).
  assert (G' : good w' (OCalc o [])) by (apply good_next; [assumption|]; intros J; apply adm_nil).
  destruct (calc_direct w' _ o C fe G' Hc i x P H0 H1 sg F2 Hi0 Ht a Hp V) as (A1 & A2 & _). rewrite F3 in *.
  split; [|split].
  - rewrite A1. f_equal. f_equal. unfold surface_value, bare_value. rewrite B. ring.
  - rewrite A2. f_equal. unfold volume_value. rewrite B. ring.
  - intros ->. destruct (calc_interaction_bare w' _ o C fe G' Hc i x P sg F2 Hi0 a Hp V F1 B) as [X|X]; rewrite ?F3 in X; auto.
Qed.
Print Assumptions C17_bare_soil.

(** *** C16.  tau = 0 switches the layer off: direct contributions, and the interaction
    contribution for tau given as a plain number (for arrays see C16_tau_zero_interaction). *)
Theorem C16_tau_zero_direct : forall w o kw a iq sg db i x,
  let w' := fst (step w (OCalc o kw)) in
  good w (OCalc o kw) -> snd (step w (OCalc o kw)) = RetArr a -> obs_flags w' o iq sg db ->
  valid_idx (shp (row a 0)) i -> at_point w' o i x ->
  (0 < cos (p_t0 x))%R -> (0 < cos (p_tex x))%R -> (sg = true -> p_I0 x <> 0%R) ->
  p_tau x = 0%R ->
  get (row a 1) i = in_units db (bare_value x * unit_factor sg x) /\
  get (row a 2) i = in_units db 0.
Proof.
  intros w o kw a iq sg db i x w' G E Fl V P H0 H1 Hi0 T.
  destruct (C47_direct_contributions w o kw a iq sg db i x G E Fl V P H0 H1) as [A1 A2]; [rewrite T; lra|assumption|].
  rewrite A1, A2. unfold surface_value, volume_value, bare_value. rewrite (attenuation_0 x T). split; f_equal; ring.
Qed.
Print Assumptions C16_tau_zero_direct.

(** *** C18.  Signs, bounds and monotonicity in tau of the direct contributions (linear units). *)
Lemma unit_factor_pos sg x : (0 < p_I0 x)%R -> (0 < cos (p_t0 x))%R -> (0 < unit_factor sg x)%R.
Proof.
  intros H1 H2. unfold unit_factor. destruct sg; [|lra]. apply Rdiv_lt_0_compat; [|assumption].
  pose proof PI_RGT_0. apply Rmult_lt_0_compat; [apply Rmult_lt_0_compat|]; lra.
Qed.
Theorem C18_signs_and_bounds : forall w o kw a iq sg i x,
  let w' := fst (step w (OCalc o kw)) in
  good w (OCalc o kw) -> snd (step w (OCalc o kw)) = RetArr a -> obs_flags w' o iq sg false ->
  valid_idx (shp (row a 0)) i -> at_point w' o i x -> physical x ->
  exists surf vol, get (row a 1) i = Fin surf /\ get (row a 2) i = Fin vol /\
    (0 <= surf <= bare_value x * unit_factor sg x)%R /\ (0 <= vol <= deep_value x * unit_factor sg x)%R.
Proof.
  intros w o kw a iq sg i x w' G E Fl V P Ph. pose proof Ph as (H1 & H2 & H3 & H4 & _).
  destruct (C47_direct_contributions w o kw a iq sg false i x G E Fl V P H2 H3 H4) as [A1 A2]; [intros _; lra|].
  eexists _, _. split; [exact A1|]. split; [exact A2|].
  pose proof (unit_factor_pos sg x H1 H2) as U. destruct (surface_pos x Ph) as [S1 S2]. destruct (volume_pos x Ph) as [V1 V2].
  repeat split; try (apply Rmult_le_pos; lra); apply Rmult_le_compat_r; lra.
Qed.
(** two evaluations - of different objects, or of one object at different times or positions - whose
    inputs agree except for tau *)
Theorem C18_monotone_in_tau : forall w1 o1 kw1 a1 iq1 i1 w2 o2 kw2 a2 iq2 i2 sg x t1 t2,
  let w1' := fst (step w1 (OCalc o1 kw1)) in let w2' := fst (step w2 (OCalc o2 kw2)) in
  good w1 (OCalc o1 kw1) -> snd (step w1 (OCalc o1 kw1)) = RetArr a1 -> obs_flags w1' o1 iq1 sg false ->
  good w2 (OCalc o2 kw2) -> snd (step w2 (OCalc o2 kw2)) = RetArr a2 -> obs_flags w2' o2 iq2 sg false ->
  valid_idx (shp (row a1 0)) i1 -> valid_idx (shp (row a2 0)) i2 ->
  at_point w1' o1 i1 (set_tau x t1) -> at_point w2' o2 i2 (set_tau x t2) -> physical x ->
  (0 <= t1 <= t2)%R ->
  exists s1 v1 s2 v2, get (row a1 1) i1 = Fin s1 /\ get (row a1 2) i1 = Fin v1 /\
    get (row a2 1) i2 = Fin s2 /\ get (row a2 2) i2 = Fin v2 /\ (s2 <= s1)%R /\ (v1 <= v2)%R.
Proof.
  intros w1 o1 kw1 a1 iq1 i1 w2 o2 kw2 a2 iq2 i2 sg x t1 t2 w1' w2' G1 E1 Fl1 G2 E2 Fl2 V1 V2 P1 P2 Ph Ht.
  pose proof Ph as (H1 & H2 & H3 & H4 & _).
  destruct (C47_direct_contributions w1 o1 kw1 a1 iq1 sg false i1 _ G1 E1 Fl1 V1 P1) as [A1 A2]; cbn [p_t0 p_tex p_tau p_I0 set_tau]; try assumption; try lra; try (intros _; lra).
  destruct (C47_direct_contributions w2 o2 kw2 a2 iq2 sg false i2 _ G2 E2 Fl2 V2 P2) as [B1 B2]; cbn [p_t0 p_tex p_tau p_I0 set_tau]; try assumption; try lra; try (intros _; lra).
  eexists _, _, _, _. split; [exact A1|]. split; [exact A2|]. split; [exact B1|]. split; [exact B2|].
  change (unit_factor sg (set_tau x t1)) with (unit_factor sg x). change (unit_factor sg (set_tau x t2)) with (unit_factor sg x).
  pose proof (unit_factor_pos sg x H1 H2) as U.
  split; (apply Rmult_le_compat_r; [lra|]); [apply surface_mono|apply volume_mono]; tauto.
Qed.
Print Assumptions C18_signs_and_bounds.
Print Assumptions C18_monotone_in_tau.

(** ** A state that meets all of these hypotheses: two samples, HG volume and isotropic surface *)
Definition wB : world := fst (step (wA false true false) (OCalc 0 [])).
Definition fB (s : string) : R :=
  if String.eqb s "theta_0" then 1 else if String.eqb s "theta_ex" then 1 else if String.eqb s "phi_0" then 0
  else if String.eqb s "phi_ex" then 0 + PI else if String.eqb s "t" then 1/4 else if String.eqb s "tau" then 1
  else if String.eqb s "omega" then 1/3 else if String.eqb s "bsf" then 0 else 1/4.
Definition xB : point :=
  mk_point 2 1 1 1 (1/3) (1/4) 0 (phase_value fB (VHG (ESym "t") (Some 2) a_vol)) (phase_value fB (SIso a_srf)).
Ltac obs_num H := match type of H with
  | ?lhs = RetArr ?a => match goal with |- _ = ?v => let E := fresh in
      assert (E : match lhs with RetArr b => bget b [1] | _ => NaN end = v) by (vm_compute; reflexivity);
      rewrite H in E; exact E end
  end.
Lemma wB_named : named wB 0 [1] fB.
Proof.
  unfold named, obs_angle. repeat split.
  1-4: intros a H; obs_num H.
  intros d k a H Hk.
  assert (E : match snd (step wB (OParamDict 0)) with RetDict d => map (fun kv => (fst kv, bget (snd kv) [1])) d | _ => [] end
    = [("bsf", Fin 0%R); ("tau", Fin 1%R); ("omega", Fin (1/3)); ("NormBRDF", Fin (1/4)); ("t", Fin (1/4))]) by (vm_compute; reflexivity).
  rewrite H in E. clear H.
  assert (M : dget (map (fun kv => (fst kv, bget (snd kv) [1])) d) k = Some (bget a [1])).
  { clear E. induction d as [|[k' v] d IH]; [discriminate|]. simpl in *. destruct (String.eqb k k'); [injection Hk as ->; reflexivity|auto]. }
  rewrite E in M. clear E Hk. cbn [dget] in M. unfold fB.
  destruct (String.eqb_spec k "bsf") as [->|]; [injection M as <-; reflexivity|].
  destruct (String.eqb_spec k "tau") as [->|]; [injection M as <-; reflexivity|].
  destruct (String.eqb_spec k "omega") as [->|]; [injection M as <-; reflexivity|].
  destruct (String.eqb_spec k "NormBRDF") as [->|]; [injection M as <-; reflexivity|].
  destruct (String.eqb_spec k "t") as [->|]; [injection M as <-; reflexivity|]. discriminate.
Qed.
Lemma cos1_pos : (0 < cos 1)%R.
Proof. apply cos_gt_0; pose proof PI_RGT_0; pose proof PI2_1; lra. Qed.
Lemma wB_good : good wB (OCalc 0 []).
Proof. apply good_next; [apply wA_good; intros; apply adm_nil|]. intros J. apply adm_nil. Qed.
Lemma wB_ok : ok_scat fB (VHG (ESym "t") (Some 2) a_vol) /\ ok_scat fB (SIso a_srf).
Proof.
  split; [|exact I]. simpl. unfold ok_t, ok_a, wd_a. simpl. unfold fB. simpl. rewrite Q2R_1', ?Q2R_Z.
  repeat split; try exact I; try (apply Rabs_def1; lra); apply Rabs_le; lra.
Qed.
Lemma wB_point : at_point wB 0 [1] xB.
Proof.
  unfold at_point.
  split. { intros a (r & Hr & Ha).
    assert (E : match obj (w_heap wB) 0 with Ok r => match deref (w_heap wB) (r_I0 r) with Ok b => bget b [1] | _ => NaN end | _ => NaN end = Fin 2%R)
      by (vm_compute; reflexivity). rewrite Hr, Ha in E. exact E. }
  unfold obs_angle, obs_param.
  split; [intros a H; obs_num H|].
  split; [intros a H; obs_num H|].
  split; [intros a H; obs_num H|].
  split; [intros a H; obs_num H|].
  split; [intros a H; obs_num H|].
  split; [intros a H; obs_num H|].
  split; intros a H.
  - apply (C48_documented_phase_functions wB (OCalc 0 []) 0 WV _ a [1] fB wB_good H); [|apply wB_named|apply wB_ok].
    eexists. split; vm_compute; reflexivity.
  - apply (C48_documented_phase_functions wB (OCalc 0 []) 0 WSRF _ a [1] fB wB_good H); [|apply wB_named|apply wB_ok].
    eexists. split; vm_compute; reflexivity.
Qed.
Lemma xB_physical : physical xB.
Proof.
  pose proof cos1_pos. pose proof PI_RGT_0. unfold physical, xB. cbn [p_I0 p_t0 p_tex p_tau p_omega p_norm p_bsfr p_vol p_brdf].
  repeat (split; [lra|]). split.
  - cbn [phase_value]. destruct wB_ok as [[Ot Oa] _]. pose proof (ok_den fB _ _ Ot Oa) as D.
    unfold p_hg, hg. pose proof (pow32_pos _ D). apply Rmult_le_pos; [|left; apply Rinv_0_lt_compat; lra].
    left. apply Rdiv_lt_0_compat; [|assumption]. cbn [evalR]. unfold fB. simpl. lra.
  - cbn [phase_value]. unfold b_isotropic. left. apply Rdiv_lt_0_compat; lra.
Qed.
Example C47_nonvacuous : exists a, snd (step (wA false true false) (OCalc 0 [])) = RetArr a /\
  good (wA false true false) (OCalc 0 []) /\ obs_flags wB 0 false true false /\ valid_idx (shp (row a 0)) [1] /\
  at_point wB 0 [1] xB /\ physical xB /\ (0 < cos (p_t0 xB))%R /\ p_I0 xB <> 0%R.
Proof.
  destruct (is_arr_ex (snd (step (wA false true false) (OCalc 0 [])))) as [a Ha]; [vm_compute; reflexivity|].
  exists a. split; [exact Ha|]. split; [apply wA_good; intros; apply adm_nil|]. split; [eexists; split; [vm_compute; reflexivity|auto]|]. split.
  - assert (E : match snd (step (wA false true false) (OCalc 0 [])) with RetArr a => shp a | _ => [] end = [2; 3]) by (vm_compute; reflexivity).
    rewrite Ha in E. unfold row. cbn [shp]. rewrite E. simpl. lia.
  - split; [exact wB_point|]. split; [exact xB_physical|]. split; [exact cos1_pos|]. simpl. lra.
Qed.
Example C48_nonvacuous : exists v s, obs_scat wB 0 WV v /\ obs_fun wB 0 WV s /\ named wB 0 [1] fB /\ ok_scat fB s /\ good wB (OCalc 0 []).
Proof.
  destruct (is_arr_ex (snd (step wB (OVolume 0 [])))) as [a Ha]; [vm_compute; reflexivity|].
  assert (Hc : exists C fe, at_conf wB 0 C fe).
  { destruct (obj (w_heap wB) 0) as [r|] eqn:Er; [|vm_compute in Er; discriminate]. eexists _, _, r. eauto. }
  destruct Hc as (C & fe & Hc). rewrite (volume_nil wB 0 C fe) in Ha; [|apply good_next; [apply wA_good; intros; apply adm_nil|intros J; apply adm_nil]|assumption].
  destruct (p_volume C) as [u|] eqn:Eu; [|discriminate]. destruct (p_volume_inv _ _ Eu) as (? & ? & ? & ? & v & ? & ? & _ & Hv & _).
  exists v, (VHG (ESym "t") (Some 2) a_vol). split; [apply (c_scat _ _ _ _ _ wB_good Hc); exact Hv|].
  split; [eexists; split; vm_compute; reflexivity|]. split; [exact wB_named|]. split; [exact (proj1 wB_ok)|exact wB_good].
Qed.
Example C17_nonvacuous : exists a0 a1, good (wA false true false) (OCalc 0 []) /\ obs_flags (wA false true false) 0 false true false /\
  calc_with_bsf (wA false true false) 0 0 = RetArr a0 /\ calc_with_bsf (wA false true false) 0 1 = RetArr a1.
Proof.
  destruct (is_arr_ex (calc_with_bsf (wA false true false) 0 0)) as [a0 H0]; [vm_compute; reflexivity|].
  destruct (is_arr_ex (calc_with_bsf (wA false true false) 0 1)) as [a1 H1]; [vm_compute; reflexivity|].
  exists a0, a1. split; [apply wA_good; intros; apply adm_nil|]. split; [eexists; split; [vm_compute; reflexivity|auto]|]. auto.
Qed.
