(** Concrete cases that meet the hypotheses of theorems whose files have no example of their own:
    C10, C18, C25/C52, C35, C49-C51, C53 and C55. The hypotheses of C54 are met in C42_nonvacuous,
    C57 in C38_nonvacuous, C59 in C19_nonvacuous, C60 in C21_success_nonvacuous, C94 in C93_nonvacuous. *)
From Coquelicot Require Import Coquelicot.
From Coq Require Import Lia List.
From Verif Require Import SpecScat SpecExp SpecInt Flip.
From Verif Require Import Validity Properties6 Properties9 Properties12 Properties19 Properties20 Wit19 Wit20.
Open Scope string_scope.
Open Scope nat_scope.
Open Scope list_scope.

(** C10: a bistatic object with p_ex fixed rejects a new p_ex; an unknown keyword is rejected *)
Example C10_nonvacuous :
  raised (snd (step (wC BiFix 1 1 PI (Q2R 0)) (OSetGeometry 0 (("p_ex", Some (PNum (Fin 1))) :: nil)))) /\
  raised (snd (step (wC Bi 1 1 0 0) (OSetGeometry 0 (("theta", Some (PNum (Fin 1))) :: nil)))) /\
  geometry_op (OSetGeometry 0 (("t_0", Some (PNum (Fin 1))) :: nil)) 0 /\ exists r, obj (w_heap (wC Bi 1 1 0 0)) 0 = Ok r.
Proof.
  split; [eexists; vm_compute; reflexivity|]. split; [eexists; vm_compute; reflexivity|]. split; [reflexivity|].
  eexists. vm_compute. reflexivity.
Qed.

(** C18: one object with two optical depths, 1/2 and 1, at the same incidence angle *)
Lemma xZ_physical tA tB uA uB j : (0 < cos (pick (col j) tA tB))%R -> (0 <= pick (time j) uA uB)%R -> physical (xZ tA tB uA uB j).
Proof.
  intros Hc Hu. pose proof PI_RGT_0. destruct (wZ_ok tA tB uA uB j) as [[Ot Oa] [Ot' Oa']].
  unfold physical, xZ. cbn [p_I0 p_t0 p_tex p_tau p_omega p_norm p_bsfr p_vol p_brdf].
  repeat (split; [lra|]). split.
  - cbn [phase_value]. pose proof (ok_den _ _ _ Ot Oa) as D. unfold p_hg, hg. pose proof (pow32_pos _ D).
    apply Rmult_le_pos; [|left; apply Rinv_0_lt_compat; lra]. left. apply Rdiv_lt_0_compat; [|assumption]. cbn [evalR]. unfold fZ. simpl. lra.
  - cbn [phase_value]. pose proof (ok_den _ _ _ Ot' Oa') as D. unfold b_hg, p_hg, hg. pose proof (pow32_pos _ D).
    apply Rmult_le_pos; [|left; apply Rinv_0_lt_compat; lra]. left. apply Rdiv_lt_0_compat; [|assumption]. cbn [evalR]. unfold fZ. simpl. lra.
Qed.
Example C18_nonvacuous : exists w o a i1 i2 x, let w' := fst (step w (OCalc o nil)) in
  good w (OCalc o nil) /\ snd (step w (OCalc o nil)) = RetArr a /\ obs_flags w' o true false false /\
  valid_idx (shp (row a 0)) i1 /\ valid_idx (shp (row a 0)) i2 /\
  at_point w' o i1 (set_tau x (1/2)) /\ at_point w' o i2 (set_tau x 1) /\ physical x.
Proof.
  destruct (wZ_calc 1 (1/3) (1/2) 1) as (a & Ha & Sa).
  exists (wZ 1 (1/3) (1/2) 1), 0, a, (0 :: 0 :: nil), (0 :: 1 :: nil), (xZ 1 (1/3) (1/2) 1 (0 :: 0 :: nil)). intros w'.
  pose proof (wZ_good 1 (1/3) (1/2) 1) as G.
  split; [exact G|]. split; [exact Ha|]. split; [exact (flags_after _ _ _ _ _ G (wZ_flags 1 (1/3) (1/2) 1))|].
  rewrite Sa. split; [repeat constructor|]. split; [repeat constructor|].
  split; [exact (proj1 (inputs_after _ _ _ _ _ _ _ _ (or_introl eq_refl) G (wZ_inputs 1 (1/3) (1/2) 1 (0 :: 0 :: nil) ltac:(repeat constructor))))|].
  split; [exact (proj1 (inputs_after _ _ _ _ _ _ _ _ (or_introl eq_refl) G (wZ_inputs 1 (1/3) (1/2) 1 (0 :: 1 :: nil) ltac:(repeat constructor))))|].
  apply xZ_physical; cbn [pick col time nth]; [exact cos1_pos|lra].
Qed.

(** C25, C52: the coefficient of order 3 of the fifth power *)
Example C52_nonvacuous : exists e, legendre_coefficient 3 (SCos 5 (Some 4) a_srf) = Ok e.
Proof. eexists. vm_compute. reflexivity. Qed.

(** C35: nadir incidence *)
Example C35_nonvacuous : exists w js j, let x := xZ 0 1 1 2 (0 :: 0 :: nil) in
  good w (OJacobian 0 keysB "list") /\ jac_list w 0 keysB js /\ obs_flags w 0 true false false /\ at_point w 0 (0 :: 0 :: nil) x /\
  (0 < cos (p_t0 x))%R /\ (0 < cos (p_tex x))%R /\ nth_error keysB 3 = Some "tau" /\ nth_error js 3 = Some j /\ cos (p_tex x) = 1%R /\
  (0 < p_vol x)%R.
Proof.
  assert (J : exists js, jac_list (wZ 0 1 1 2) 0 keysB js /\ length js = length keysB) by (apply jac_ex; vm_compute; reflexivity).
  destruct J as (js & J & L). destruct (len_nth js 3) as [j Hj]; [rewrite L; cbn; lia|]. exists (wZ 0 1 1 2), js, j. intros x.
  split; [apply tidy_good, wZ_tidy; [intros []|exact I|intros; exact I]|]. split; [exact J|]. split; [apply wZ_flags|].
  split; [exact (proj1 (wZ_inputs 0 1 1 2 (0 :: 0 :: nil) ltac:(repeat constructor)))|].
  unfold x, xZ. cbn [p_t0 p_tex p_vol pick col time nth]. rewrite cos_0. split; [lra|]. split; [lra|]. split; [reflexivity|]. split; [exact Hj|]. split; [reflexivity|].
  cbn [phase_value]. destruct (wZ_ok 0 1 1 2 (0 :: 0 :: nil)) as [[Ot Oa] _]. pose proof (ok_den _ _ _ Ot Oa) as D. unfold p_hg, hg. pose proof (pow32_pos _ D). pose proof PI_RGT_0.
  apply Rmult_lt_0_compat; [|apply Rinv_0_lt_compat; lra]. apply Rdiv_lt_0_compat; [|assumption]. cbn [evalR]. unfold fZ. simpl. lra.
Qed.

(** C49 (monostatic) and C50 (bistatic); C51: a monostatic and a bistatic object *)
Example C49_C50_nonvacuous m : exists w p o i y iq sg db x f V SRF, let w' := fst (step w p) in
  tidy w p /\ returns_interaction w p o i y /\ obs_flags w' o iq sg db /\ obs_mode w' o m /\ sample w' o i x f V SRF /\ (sg = true -> p_I0 x <> 0%R).
Proof. exact (C30_nonvacuous m). Qed.
Example C51_nonvacuous : exists w1 w2 y1 y2 y3 z1 z2 z3, let f1 := fC Mono 1 1 0 (0 + PI) in let f2 := fC Bi 1 1 0 (0 + PI) in
  calc_at w1 0 nil (1 :: nil) true false false (xC Mono 1 1 0 (0 + PI)) f1 VC SC y1 y2 y3 /\
  calc_at w2 0 nil (1 :: nil) false false false (xC Bi 1 1 0 (0 + PI)) f2 VC SC z1 z2 z3 /\
  (forall s, In s ("theta_0" :: "theta_ex" :: "phi_0" :: "phi_ex" :: nil) -> f1 s = f2 s) /\
  same_params f1 f2 VC SC /\ same_numbers (xC Mono 1 1 0 (0 + PI)) (xC Bi 1 1 0 (0 + PI)).
Proof.
  destruct (wC_calc Mono 1 1 0 (0 + PI) cos1_lt cos1_lt) as (y1 & y2 & y3 & H1). destruct (wC_calc Bi 1 1 0 (0 + PI) cos1_lt cos1_lt) as (z1 & z2 & z3 & H2).
  eexists _, _, y1, y2, y3, z1, z2, z3. intros f1 f2. split; [exact H1|]. split; [exact H2|]. split; [|split; [|repeat split; reflexivity]].
  - intros s Hs. simpl in Hs. repeat (destruct Hs as [<-|Hs]; [reflexivity|]). contradiction.
  - intros s [H|H]; simpl in H; repeat (destruct H as [<-|H]; [reflexivity|]); contradiction.
Qed.

(** C53: a linear combination with an expansion; the two components have their own number of coefficients and their own a *)
Example C53_nonvacuous : exists e,
  let cs := (ESym "w", VHG (ESym "t") (Some 7) a_vol) :: (ENum 2, VRay a_srf) :: nil in
  uniform cs /\ plain (LinComb cs a_vol) /\
  legendre_expansion (ESym "theta_0") (ESym "theta_ex") (ESym "phi_0") (ESym "phi_ex") (LinComb cs a_vol) = Ok e.
Proof.
  eexists. cbn zeta. destruct C28_nonvacuous as (P & U & _). split; [exact U|]. split; [exact P|reflexivity].
Qed.
(** C55: tau defined by a sympy object in v, v given *)
Example C55_nonvacuous : let ps := OUpdate 0 (("v", PNum (Fin 1)) :: nil) :: OSetDef 0 Tau (DSym (ESym "v")) :: nil in
  snd (step (fst (run (init true true) (firstn 2 hist0))) new_06) = RetId 0 /\
  latest_def 0 Tau (DStr (ESym (pname_str Tau))) ps = DSym (ESym "v") /\ syms (ESym "v") <> nil.
Proof. cbn zeta. split; [vm_compute; reflexivity|]. split; [reflexivity|discriminate]. Qed.
