(** Property theorems, part 2: the numbers returned by calc(), surface(), volume(), interaction().

    Vocabulary: [good w p] says that [w] is a state reached by an admissible history (see C04: no
    reassignment of V/SRF that changes ncoefs, no backend switch, no in-place mutation of geometry
    arrays, no new names after a jacobian of symbols) and that the call [p] is admissible there.
    [obs_I0], [obs_angle], [obs_param], [obs_scat], [obs_flags] are what one reads from the object
    through the API (R.I0, R.t_0, R.tau, R.V.calc(...), R.sig0, ...).  [row a k] is a[k];
    [valid_idx] ranges over all positions of an array, [bget x i] is the element of [x] that numpy
    broadcasting pairs with position [i] of the result. *)
From Verif Require Import Scale.
Open Scope nat_scope.
Open Scope string_scope.
Open Scope list_scope.

(** *** C13.  Components add up. *)
Theorem C13_linear_sum : forall w o kw a iq sg,
  let w' := fst (step w (OCalc o kw)) in
  good w (OCalc o kw) -> snd (step w (OCalc o kw)) = RetArr a ->
  obs_flags w' o iq sg false ->
  (* sigma0 needs a non-zero I0 and finite angles; nothing is needed for intensities *)
  (sg = true -> forall x t i, obs_I0 w' o x -> obs_angle w' o T0 t ->
     (exists r, r <> 0%R /\ bget x i = Fin r) /\ is_fin (bget t i)) ->
  nrows a = (if iq then 4 else 3) /\
  forall i, valid_idx (shp (row a 0)) i ->
    get (row a 0) i = if iq then xadd (xadd (get (row a 1) i) (get (row a 2) i)) (get (row a 3) i)
                      else xadd (get (row a 1) i) (get (row a 2) i).
Proof.
  intros w o kw a iq sg w' G E Fl Hn.
  destruct (eval_after w (OCalc o kw) o kw a eq_refl G E) as (C & fe & Hc & Hp). cbn beta iota in Hp. fold w' in Hc.
  destruct (conf_flags _ _ _ _ _ _ _ Hc Fl) as (F1 & F2 & F3).
  assert (G' : good w' (OCalc o [])) by (apply good_next; [assumption|]; intros J; apply adm_nil).
  destruct (p_calc_rows _ _ _ Hp) as (tau & b & isurf & i0 & mu0 & ivol & iint & Et & Es & Ei & Em & _ & _ & Sv & Hv & Hi & Sa & Hget).
  split. { rewrite (nrows_eq _ _ _ Sa). unfold nrow. now rewrite F1. }
  rewrite (row_shp _ _ _ 0 Sa). intros i Hval. cbn [row get].
  destruct (Hget i Hval) as (G1 & G2 & G3 & G0). rewrite F1, F2, F3 in *.
  assert (K : is_fin (cfac sg (bget i0 i) (bget mu0 i))).
  { apply cfac_fin. intros ->. destruct (mu0_read _ _ Em) as (t0 & Ht).
    destruct (Hn eq_refl i0 t0 i) as [N1 N2].
    - eapply c_I0_obs; eassumption.
    - eapply c_angle; eassumption.
    - split; [exact N1|]. rewrite (mu0_el _ _ _ i Ht Em). destruct N2 as [t ->]. eexists; reflexivity. }
  destruct K as [k K]. rewrite !x_convert_lin, K in *. rewrite G0, G1, G2. destruct iq.
  - rewrite (G3 eq_refl), ?x_convert_lin, ?K. now rewrite !xmul_add_fin.
  - now rewrite xmul_add_fin.
Qed.
Print Assumptions C13_linear_sum.

(** in dB the components combine as powers: whenever the component levels are numbers (-inf dB
    included, the level of a vanishing contribution), 10^(total/10) is the sum of the 10^(c/10). *)
Theorem C13_dB_power_sum : forall w o kw a iq sg,
  let w' := fst (step w (OCalc o kw)) in
  good w (OCalc o kw) -> snd (step w (OCalc o kw)) = RetArr a ->
  obs_flags w' o iq sg true ->
  forall i, valid_idx (shp (row a 0)) i ->
    level (get (row a 1) i) -> level (get (row a 2) i) -> (iq = true -> level (get (row a 3) i)) ->
    pow10 (get (row a 0) i) =
      if iq then xadd (xadd (pow10 (get (row a 1) i)) (pow10 (get (row a 2) i))) (pow10 (get (row a 3) i))
      else xadd (pow10 (get (row a 1) i)) (pow10 (get (row a 2) i)).
Proof.
  intros w o kw a iq sg w' G E Fl i.
  destruct (eval_after w (OCalc o kw) o kw a eq_refl G E) as (C & fe & Hc & Hp). cbn beta iota in Hp. fold w' in Hc.
  destruct (conf_flags _ _ _ _ _ _ _ Hc Fl) as (F1 & F2 & F3).
  destruct (p_calc_rows _ _ _ Hp) as (tau & b & isurf & i0 & mu0 & ivol & iint & Et & Es & Ei & Em & _ & _ & Sv & Hv & Hi & Sa & Hget).
  rewrite (row_shp _ _ _ 0 Sa). intros Hval. cbn [row get].
  destruct (Hget i Hval) as (G1 & G2 & G3 & G0). rewrite F1, F2, F3 in *.
  rewrite G0, G1, G2, !x_convert_dB. set (k := cfac sg (bget i0 i) (bget mu0 i)).
  intros L1 L2 L3. destruct (level_inv _ L1) as (r1 & X1 & P1 & ->). destruct (level_inv _ L2) as (r2 & X2 & P2 & ->).
  destruct (xmul_fin_inv _ _ _ X1) as (s1 & k1 & Y1 & Z1). destruct (xmul_fin_inv _ _ _ X2) as (s2 & k2 & Y2 & Z2).
  destruct iq.
  - rewrite (G3 eq_refl), ?x_convert_dB in *. fold k in L3 |- *. destruct (level_inv _ (L3 eq_refl)) as (r3 & X3 & P3 & ->).
    rewrite Z1 in *. rewrite !xmul_add_fin, X1, X2, X3. simpl xadd. apply level_of. lra.
  - rewrite Z1 in *. rewrite xmul_add_fin, X1, X2. simpl xadd. apply level_of. lra.
Qed.
Print Assumptions C13_dB_power_sum.

Example C13_nonvacuous : exists a, snd (step (wA false true false) (OCalc 0 [])) = RetArr a /\
  good (wA false true false) (OCalc 0 []) /\
  obs_flags (fst (step (wA false true false) (OCalc 0 []))) 0 false true false /\ valid_idx (shp (row a 0)) [1].
Proof.
  destruct (is_arr_ex (snd (step (wA false true false) (OCalc 0 [])))) as [a Ha]; [vm_compute; reflexivity|].
  exists a. split; [exact Ha|]. split; [apply wA_good; intros; apply adm_nil|]. split.
  - eexists. split; [vm_compute; reflexivity|]. auto.
  - assert (E : match snd (step (wA false true false) (OCalc 0 [])) with RetArr a => shp a | _ => [] end = [2; 3]) by (vm_compute; reflexivity).
    rewrite Ha in E. unfold row. cbn [shp]. rewrite E. simpl. lia.
Qed.

(** *** C14.  The rows of calc() are the results of surface(), volume(), interaction() in the same
    state (for tau not a plain number; for plain numbers see C16).  The interaction row differs from
    interaction() only where interaction() is NaN and tau is 0: there the NaN is replaced (C16). *)
Theorem C14_rows_are_component_calls : forall w o kw a iq sg db tau,
  let w' := fst (step w (OCalc o kw)) in
  good w (OCalc o kw) -> snd (step w (OCalc o kw)) = RetArr a ->
  obs_flags w' o iq sg db -> obs_param w' o Tau tau -> shp tau <> [] ->
  (exists s, snd (step w' (OSurface o [])) = RetArr s /\ same_arr (row a 1) s) /\
  (exists v, snd (step w' (OVolume o [])) = RetArr v /\ same_arr (row a 2) v) /\
  (iq = true -> exists x, snd (step w' (OInteraction o [])) = RetArr x /\ shp (row a 3) = shp x /\
     forall i, valid_idx (shp x) i ->
       get (row a 3) i = get x i \/ (get x i = NaN /\ bget tau i = Fin 0%R)).
Proof.
  intros w o kw a iq sg db tau w' G E Fl Ht Hshp.
  destruct (eval_after w (OCalc o kw) o kw a eq_refl G E) as (C & fe & Hc & Hp). cbn beta iota in Hp. fold w' in Hc.
  destruct (conf_flags _ _ _ _ _ _ _ Hc Fl) as (F1 & F2 & F3).
  assert (Gn : forall q, (forall J h, adm1 J h q) -> good w' q) by (intros q Hq; apply good_next; auto).
  assert (G0 : good w' (OCalc o [])) by (apply Gn; intros; apply adm_nil).
  apply (c_param _ _ _ _ _ G0 Hc) in Ht.
  destruct (p_calc_rows _ _ _ Hp) as (tau' & b & isurf & i0 & mu0 & ivol & iint & Et & Es & Ei & Em & Bi & Bm & Sv & Hv & Hi & Sa & Hget).
  assert (tau' = tau) by (apply p_val_eval in Et; congruence). subst tau'.
  assert (b = false). { destruct b; [|reflexivity]. exfalso. apply Hshp.
    destruct Hc as (r & Hr & -> & _). eapply p_eval_num; eassumption. }
  subst b. unfold off in *. cbn [andb] in *.
  split; [|split].
  - rewrite (surface_nil _ _ C fe) by (try assumption; apply Gn; intros; apply adm_nil). rewrite Es. cbn [rbind].
    destruct (p_convert_total C isurf i0 mu0 Ei Em Bi Bm) as (s & Hs). rewrite Hs. exists s. split; [reflexivity|].
    destruct (p_convert_el C isurf s Hs) as (Ss & _ & Hel); [intros ? ? X Y; rewrite Ei in X; rewrite Em in Y; inversion X; inversion Y; subst; auto|].
    split; [now rewrite (row_shp _ _ _ 1 Sa)|]. rewrite (row_shp _ _ _ 1 Sa). intros i Hi'. cbn [row get].
    rewrite (Hel i i0 mu0 Ei Em Hi'). now apply Hget.
  - rewrite (volume_nil _ _ C fe) by (try assumption; apply Gn; intros; apply adm_nil). rewrite Hv. cbn [rbind].
    rewrite <- Sv in Bi, Bm.
    destruct (p_convert_total C ivol i0 mu0 Ei Em Bi Bm) as (s & Hs). rewrite Hs. exists s. split; [reflexivity|].
    destruct (p_convert_el C ivol s Hs) as (Ss & _ & Hel); [intros ? ? X Y; rewrite Ei in X; rewrite Em in Y; inversion X; inversion Y; subst; auto|].
    split; [now rewrite (row_shp _ _ _ 2 Sa), Ss, Sv|]. rewrite (row_shp _ _ _ 2 Sa). intros i Hi'. cbn [row get].
    rewrite (Hel i i0 mu0 Ei Em) by (rewrite Sv; exact Hi'). now apply Hget.
  - intros ->. destruct (Hi F1) as (Si & ii & Hii & Hfix). destruct (k_fix_nan_spec _ _ _ Hfix) as [Sf Hf].
    assert (Sii : shp ii = shp isurf) by congruence.
    rewrite (interaction_nil _ _ C fe) by (try assumption; apply Gn; intros; apply adm_nil). rewrite Hii. cbn [rbind].
    rewrite <- Sii in Bi, Bm.
    destruct (p_convert_total C ii i0 mu0 Ei Em Bi Bm) as (s & Hs). rewrite Hs. exists s. split; [reflexivity|].
    destruct (p_convert_el C ii s Hs) as (Ss & _ & Hel); [intros ? ? X Y; rewrite Ei in X; rewrite Em in Y; inversion X; inversion Y; subst; auto|].
    split; [now rewrite (row_shp _ _ _ 3 Sa), Ss, Sii|]. rewrite Ss. intros i Hi'. cbn [row get].
    rewrite (Hel i i0 mu0 Ei Em Hi').
    destruct (Hget i) as (_ & _ & G3 & _); [congruence|]. rewrite (G3 F1).
    destruct (Hf i Hi') as [X|(N & Z & M)]; [left; now rewrite X|]. right. rewrite N. split.
    + unfold x_convert. destruct (c_dB C); reflexivity.
    + assert (B : ble (shp tau) (shp ii)).
      { destruct (p_interaction_inv _ _ _ Hii) as (? & ? & ? & t' & ? & ? & ? & ? & ? & (_ & _ & _ & T) & _ & _ & _ & _ & _ & K).
        apply k_interaction_ble in K. replace t' with tau in K by congruence. apply K. }
      specialize (M i Hi' B). rewrite N in M. simpl in M. unfold xis_zero in M. destruct (bget tau i); try discriminate.
      destruct (Req_EM_T r 0); [congruence|discriminate].
Qed.
Print Assumptions C14_rows_are_component_calls.

Example C14_nonvacuous : exists a tau, snd (step (wA false true false) (OCalc 0 [])) = RetArr a /\
  good (wA false true false) (OCalc 0 []) /\
  obs_param (fst (step (wA false true false) (OCalc 0 []))) 0 Tau tau /\ shp tau <> [].
Proof.
  destruct (is_arr_ex (snd (step (wA false true false) (OCalc 0 [])))) as [a Ha]; [vm_compute; reflexivity|].
  destruct (is_arr_ex (snd (step (fst (step (wA false true false) (OCalc 0 []))) (OReadParam 0 Tau)))) as [t Ht]; [vm_compute; reflexivity|].
  exists a, t. split; [exact Ha|]. split; [apply wA_good; intros; apply adm_nil|]. split; [exact Ht|].
  assert (E : match snd (step (fst (step (wA false true false) (OCalc 0 []))) (OReadParam 0 Tau)) with RetArr a => shp a | _ => [] end = [2]) by (vm_compute; reflexivity).
  rewrite Ht in E. rewrite E. discriminate.
Qed.

(** *** C15.  Dependence on I0. *)
(** same outcome: equal arrays or the same exception *)
Definition same_out (x y : out) : Prop :=
  match x, y with RetArr a, RetArr b => same_arr a b | Raised e, Raised f => e = f | _, _ => False end.
Definition scaled_out (k : R) (x y : out) : Prop :=
  match x, y with
  | RetArr a, RetArr b => shp a = shp b /\ forall i, valid_idx (shp a) i -> get a i = xmul (Fin k) (get b i)
  | Raised e, Raised f => e = f | _, _ => False end.
(** R.I0 = x; R.calc() *)
Definition calc_with_I0 (w : world) (o : nat) (x : R) : out :=
  snd (step (fst (step w (OSetI0 o (PNum (Fin x))))) (OCalc o [])).

Lemma flags_at w o iq sg db : obs_flags w o iq sg db -> exists C fe, at_conf w o C fe.
Proof. intros (r & Hr & _). eexists _, _, r. eauto. Qed.
Lemma calc_after_I0 w o x C fe : good w (OCalc o []) -> at_conf w o C fe ->
  calc_with_I0 w o x = outA (p_calc (with_I0c C (Ok (num x))) fe).
Proof.
  intros G Hc. unfold calc_with_I0. destruct (at_set_I0 w o (PNum (Fin x)) C fe Hc) as [H1 _].
  apply calc_nil; [|exact H1]. apply good_next.
  - eapply good_other; [exact G|]. intros J. exact I.
  - intros J. apply adm_nil.
Qed.
Theorem C15_sigma0_independent_of_I0 : forall w o x y iq db,
  good w (OCalc o []) -> obs_flags w o iq true db -> (0 < x)%R -> (0 < y)%R ->
  same_out (calc_with_I0 w o x) (calc_with_I0 w o y).
Proof.
  intros w o x y iq db G Fl Hx Hy. destruct (flags_at _ _ _ _ _ Fl) as (C & fe & Hc).
  destruct (conf_flags _ _ _ _ _ _ _ Hc Fl) as (F1 & F2 & F3).
  rewrite !(calc_after_I0 _ _ _ C fe G Hc).
  pose proof (p_calc_sig0 x y Hx Hy C fe F2) as H. unfold rrel in H.
  destruct (p_calc _ fe), (p_calc _ fe); simpl; try tauto. destruct H; split; auto.
Qed.
Theorem C15_intensity_proportional_to_I0 : forall w o x iq,
  good w (OCalc o []) -> obs_flags w o iq false false -> (0 < x)%R ->
  scaled_out x (calc_with_I0 w o x) (calc_with_I0 w o 1).
Proof.
  intros w o x iq G Fl Hx. destruct (flags_at _ _ _ _ _ Fl) as (C & fe & Hc).
  destruct (conf_flags _ _ _ _ _ _ _ Hc Fl) as (F1 & F2 & F3).
  rewrite !(calc_after_I0 _ _ _ C fe G Hc).
  pose proof (p_calc_lin x 1 Hx Rlt_0_1 C fe F2 F3) as H. unfold rrel in H.
  destruct (p_calc _ fe), (p_calc _ fe); simpl; try tauto. destruct H as [H1 H2]. split; auto.
  intros i _. destruct (H2 i) as (z & -> & ->). now rewrite xmul_1_l.
Qed.
Print Assumptions C15_sigma0_independent_of_I0.
Print Assumptions C15_intensity_proportional_to_I0.

Example C15_nonvacuous : good (wA false true false) (OCalc 0 []) /\ obs_flags (wA false true false) 0 false true false /\
  (exists a, calc_with_I0 (wA false true false) 0 3 = RetArr a /\ shp a = [2; 3]) /\
  good (wA false false false) (OCalc 0 []) /\ obs_flags (wA false false false) 0 false false false.
Proof.
  split; [apply wA_good; intros; apply adm_nil|]. split; [eexists; split; [vm_compute; reflexivity|auto]|]. split.
  - assert (E : match calc_with_I0 (wA false true false) 0 3 with RetArr a => shp a | _ => [] end = [2; 3]) by (vm_compute; reflexivity).
    destruct (calc_with_I0 (wA false true false) 0 3); try discriminate. eauto.
  - split; [apply wA_good; intros; apply adm_nil|]. eexists; split; [vm_compute; reflexivity|auto].
Qed.
