(** Facts about the updates of Analyze3D. *)
From Verif Require Export PlotFacts Properties21.
Open Scope string_scope. Open Scope nat_scope. Open Scope list_scope.

(** the calls of one update up to the evaluation *)
Definition pre_ops (o : nat) (b : bool) (kw : dict pyval) (A : nd xr) (i : nat) (vt vp : option pyval) (sg db : bool) : list op :=
  [OUpdate o kw; ONewArr A; OSetGeometry o [("t_0", Some (PArr i)); ("t_ex", vt); ("p_ex", vp)]; OSetFlags o b sg db].

(** [r'] differs from [r] only in the incidence angle and the values of the parameters [N] *)
Definition like (N : list string) (r r' : rt1) : Prop :=
  r_V r' = r_V r /\ r_SRF r' = r_SRF r /\ r_intQ r' = r_intQ r /\ r_sig0 r' = r_sig0 r /\ r_dB r' = r_dB r /\
  r_fn_input r' = r_fn_input r /\ r_fnevals_input r' = r_fnevals_input r /\ r_I0 r' = r_I0 r /\ r_def r' = r_def r /\
  r_fixed r' = r_fixed r /\ r_mono r' = r_mono r /\ r_geom r' = r_geom r /\ (forall a, a <> T0 -> r_ang r' a = r_ang r a) /\
  dkeys (r_params r') = dkeys (r_params r) /\ forall s, ~ In s N -> dget (r_params r') s = dget (r_params r) s.
Record only_values3 (o : nat) (N : list string) (w w' : world) : Prop := mk_ov3 {
  o3_be : h_be (w_heap w') = h_be (w_heap w);
  o3_seng : h_seng (w_heap w') = h_seng (w_heap w);
  o3_scats : h_scats (w_heap w') = h_scats (w_heap w);
  o3_arrs : exists ext, h_arrs (w_heap w') = h_arrs (w_heap w) ++ ext;
  o3_closed : hclosed (w_heap w) -> hclosed (w_heap w');
  o3_obj : forall r, obj (w_heap w) o = Ok r -> exists r', obj (w_heap w') o = Ok r' /\ like N r r' }.
Lemma ov3_refl o N w : only_values3 o N w w.
Proof. split; auto; [exists []; now rewrite app_nil_r|]. intros r Hr. exists r. split; [exact Hr|]. unfold like. intuition. Qed.

(** an object that Analyze3D was started for: bistatic, the incidence and exit angles are not fixed, exit angles set *)
Definition grid (r : rt1) (vt vp : pyval) : Prop :=
  r_mono r = false /\ existsb (angle_eqb T0) (r_fixed r) = false /\ existsb (angle_eqb TEx) (r_fixed r) = false /\ existsb (angle_eqb PEx) (r_fixed r) = false /\
  r_ang r TEx = Some vt /\ r_ang r PEx = Some vp.

Definition rec3 (r : rt1) (b : bool) (kw : dict pyval) (i : nat) (vt vp : pyval) : rt1 :=
  with_flags (with_ang (with_ang (with_ang (upd_rec r kw) T0 (PArr i)) TEx vt) PEx vp) b (r_sig0 r) (r_dB r).

Section Pre.
  Context (w : world) (o : nat) (r : rt1) (b : bool) (kw : dict pyval) (A : nd xr) (vt vp : pyval).
  Hypothesis (Hr : obj (w_heap w) o = Ok r) (Hg : grid r vt vp) (U : updatable w o) (Hc : hclosed (w_heap w)).
  Hypothesis (Hk : incl (dkeys kw) (dkeys (r_params r))) (Hx : has_kw (w_heap w) kw).
  Let i := length (h_arrs (w_heap w)).
  Definition w3 := fst (run w (pre_ops o b kw A (length (h_arrs (w_heap w))) (Some vt) (Some vp) (r_sig0 r) (r_dB r))).
  Let P' := dupdate (r_params r) (map (fun kv => (fst kv, S1d (snd kv))) kw).
  Lemma pre_upd : upd_rec r kw = with_params r P'.
  Proof. unfold upd_rec. rewrite (upd_kw_bsf _ _ (updatable_bsf _ _ _ (tidy_good _ _ (proj1 U)) Hr)). reflexivity. Qed.
  Lemma pre_keys : dkeys P' = dkeys (r_params r).
  Proof. apply dupdate_keys. rewrite dkeys_map. exact Hk. Qed.
  Lemma pre_state : obj (w_heap w3) o = Ok (rec3 r b kw i vt vp) /\ h_be (w_heap w3) = h_be (w_heap w) /\ h_seng (w_heap w3) = h_seng (w_heap w) /\
    h_scats (w_heap w3) = h_scats (w_heap w) /\ h_arrs (w_heap w3) = h_arrs (w_heap w) ++ [A] /\ hclosed (w_heap w3) /\ updatable w3 o /\
    snd (run w (pre_ops o b kw A i (Some vt) (Some vp) (r_sig0 r) (r_dB r))) = [RetNone; RetId i; RetNone; RetNone] /\
    obj (w_heap (fst (run w (firstn 3 (pre_ops o b kw A i (Some vt) (Some vp) (r_sig0 r) (r_dB r)))))) o =
      Ok (with_ang (with_ang (with_ang (upd_rec r kw) T0 (PArr i)) TEx vt) PEx vp).
  Proof.
    unfold w3, pre_ops. fold i. cbn [firstn]. rewrite !run_cons.
    set (u1 := fst (step w (OUpdate o kw))). set (u2 := fst (step u1 (ONewArr A))).
    set (u3 := fst (step u2 (OSetGeometry o [("t_0", Some (PArr i)); ("t_ex", Some vt); ("p_ex", Some vp)]))).
    set (u4 := fst (step u3 (OSetFlags o b (r_sig0 r) (r_dB r)))). cbn [run fst snd map].
    assert (E1 : w_heap u1 = hput (w_heap w) o (upd_rec r kw)) by (apply step_update; exact Hr).
    assert (O1 : obj (w_heap u1) o = Ok (upd_rec r kw)) by (rewrite E1; eapply obj_hput_same; exact Hr).
    assert (C1 : hclosed (w_heap u1)).
    { apply step_closed; [exact Hc|]. split; [intros o' Eo'; inversion Eo'; subst; apply has_obj_at; eauto|exact Hx]. }
    assert (T1 : tidy u1 (OCalc o nil)).
    { apply (tidy_snoc _ _ _ _ (proj1 U)); auto; try (intros J; apply adm_calc_nil); try exact I.
      intros J. cbn [adm1]. intros _ r0 Hr0. assert (r0 = r) by congruence. subst r0. exact Hk. }
    assert (E2 : h_objs (w_heap u2) = h_objs (w_heap u1) /\ h_arrs (w_heap u2) = h_arrs (w_heap u1) ++ [A] /\ h_scats (w_heap u2) = h_scats (w_heap u1) /\
      h_be (w_heap u2) = h_be (w_heap u1) /\ h_seng (w_heap u2) = h_seng (w_heap u1)) by (repeat split; reflexivity).
    destruct E2 as (E2o & E2a & E2s & E2b & E2g).
    assert (O2 : obj (w_heap u2) o = Ok (upd_rec r kw)) by (unfold obj in *; now rewrite E2o).
    assert (C2 : hclosed (w_heap u2)) by (apply step_closed; [exact C1|]; split; [discriminate|exact I]).
    assert (T2 : tidy u2 (OCalc o nil)) by (apply (tidy_snoc _ _ _ _ T1); auto; try exact I; try (intros J; exact I); intros J; apply adm_calc_nil).
    assert (E3 : w_heap u3 = hput (w_heap u2) o (with_ang (with_ang (with_ang (upd_rec r kw) T0 (PArr i)) TEx vt) PEx vp) /\
      snd (step u2 (OSetGeometry o [("t_0", Some (PArr i)); ("t_ex", Some vt); ("p_ex", Some vp)])) = RetNone).
    { unfold u3. cbn [step]. rewrite fst_as_out, snd_as_out.
      destruct (eff_geo o [("t_0", Some (PArr i)); ("t_ex", Some vt); ("p_ex", Some vp)] u2 _ O2) as [-> ->].
      assert (X : geo_rec [("t_0", Some (PArr i)); ("t_ex", Some vt); ("p_ex", Some vp)] (upd_rec r kw) =
        (with_ang (with_ang (with_ang (upd_rec r kw) T0 (PArr i)) TEx vt) PEx vp, Ok tt)).
      { destruct Hg as (G1 & G2 & G3 & G4 & _). rewrite pre_upd. unfold geo_rec. cbn [ang_kw rmap opt_res option_map angle_of_str String.eqb Ascii.eqb Bool.eqb fst snd rbind].
        change (r_mono (with_params r P')) with (r_mono r). rewrite G1, andb_false_r. cbn [geo_loop].
        change (r_fixed (with_params r P')) with (r_fixed r). rewrite G2.
        change (r_fixed (with_ang (with_params r P') T0 (PArr i))) with (r_fixed r). rewrite G3.
        change (r_fixed (with_ang (with_ang (with_params r P') T0 (PArr i)) TEx vt)) with (r_fixed r). rewrite G4. reflexivity. }
      rewrite X. split; reflexivity. }
    destruct E3 as [E3 R3]. rewrite R3.
    assert (O3 : obj (w_heap u3) o = Ok (with_ang (with_ang (with_ang (upd_rec r kw) T0 (PArr i)) TEx vt) PEx vp)) by (rewrite E3; eapply obj_hput_same; exact O2).
    destruct Hg as (G1 & G2 & G3 & G4 & G5 & G6).
    assert (C3 : hclosed (w_heap u3)).
    { apply step_closed; [exact C2|]. split; [intros o' Eo'; inversion Eo'; subst; apply has_obj_at; eauto|].
      pose proof (cl_ang _ _ (Hc _ _ Hr) _ _ G5) as V5. pose proof (cl_ang _ _ (Hc _ _ Hr) _ _ G6) as V6.
      assert (L : forall v, has_val (w_heap w) v -> has_val (w_heap u2) v).
      { intros [x|x]; cbn [has_val]; [auto|]. rewrite E2a, E1. change (h_arrs (hput (w_heap w) o (upd_rec r kw))) with (h_arrs (w_heap w)). rewrite app_length. cbn. lia. }
      intros k v Hin. destruct Hin as [Hin|[Hin|[Hin|[]]]]; injection Hin as <- <-; [|now apply L|now apply L].
      cbn [has_val]. rewrite E2a, E1. change (h_arrs (hput (w_heap w) o (upd_rec r kw))) with (h_arrs (w_heap w)). rewrite app_length. cbn. unfold i. lia. }
    assert (T3 : tidy u3 (OCalc o nil)) by (apply (tidy_snoc _ _ _ _ T2); auto; try exact I; try (intros J; exact I); intros J; apply adm_calc_nil).
    assert (E4 : w_heap u4 = hput (w_heap u3) o (rec3 r b kw i vt vp) /\ snd (step u3 (OSetFlags o b (r_sig0 r) (r_dB r))) = RetNone).
    { unfold u4. cbn [step]. rewrite fst_as_out, snd_as_out. unfold bind, get_obj, gets. rewrite O3. split; reflexivity. }
    destruct E4 as [E4 R4]. rewrite R4.
    assert (O4 : obj (w_heap u4) o = Ok (rec3 r b kw i vt vp)) by (rewrite E4; eapply obj_hput_same; exact O3).
    split; [exact O4|].
    split; [rewrite E4, E3; change (h_be (w_heap u2) = h_be (w_heap w)); rewrite E2b, E1; reflexivity|].
    split; [rewrite E4, E3; change (h_seng (w_heap u2) = h_seng (w_heap w)); rewrite E2g, E1; reflexivity|].
    split; [rewrite E4, E3; change (h_scats (w_heap u2) = h_scats (w_heap w)); rewrite E2s, E1; reflexivity|].
    split; [rewrite E4, E3; change (h_arrs (w_heap u2) = h_arrs (w_heap w) ++ [A]); rewrite E2a, E1; reflexivity|].
    split; [apply step_closed; [exact C3|]; split; [intros o' Eo'; inversion Eo'; subst; apply has_obj_at; eauto|exact I]|].
    split.
    - split; [apply (tidy_snoc _ _ _ _ T3); auto; try exact I; try (intros J; exact I); intros J; apply adm_calc_nil|].
      apply (up_to_date_current _ _ _ O4). destruct U as [_ U2]. apply (up_to_date_current _ _ _ Hr) in U2.
      intros k Hk'. unfold rec3 in *. rewrite pre_upd in *. cbn [with_flags with_ang with_params r_fnev r_params] in *. rewrite pre_keys. now apply U2.
    - split; [|exact O3]. rewrite update_out with (r := r) by exact Hr.
      assert (snd (step u1 (ONewArr A)) = RetId i) as ->; [|reflexivity].
      cbn [step]. rewrite snd_as_out. unfold add_arr. cbn [snd]. rewrite E1. reflexivity.
  Qed.
End Pre.

Definition full_t (inc : R) (t : nd xr) : nd xr := mk_nd (shp t) (fun _ => Fin (inc * (PI / 180))%R).

Section One.
  Context (w : world) (o : nat) (r : rt1) (vt vp : pyval) (c : string) (sl : dict slider) (inc : R) (t p : nd xr).
  Hypothesis (Hr : obj (w_heap w) o = Ok r) (Hg : grid r vt vp) (U : updatable w o) (Hc : hclosed (w_heap w)).
  Hypothesis (Hk : incl (dkeys sl) (dkeys (r_params r))) (Hi : r_fnevals_input r = None) (Dt : read_ang (w_heap w) r TEx = Ok t) (Dp : read_ang (w_heap w) r PEx = Ok p).
  Notation kw := (slider_vals sl).
  Notation b := (shows_interaction c).
  Notation u := (w3 w o r b kw (full_t inc t) vt vp).
  Notation v := (fst (step (fst (step u (OCalc o nil))) (OSetFlags o (r_intQ r) (r_sig0 r) (r_dB r)))).
  Lemma one_update : analyze3d_update o c sl inc w = (v, op_res (snd (step u (OCalc o nil)))).
  Proof.
    destruct (pre_state w o r b kw (full_t inc t) vt vp Hr Hg U Hc) as (O3 & _ & _ & _ & _ & _ & T3 & _).
    { rewrite slider_vals_keys. exact Hk. } { apply slider_vals_exist. }
    unfold w3, pre_ops in *. rewrite !run_cons in *. cbn [run fst] in *.
    set (u1 := fst (step w (OUpdate o kw))) in *. set (u2 := fst (step u1 (ONewArr (full_t inc t)))) in *.
    set (i := length (h_arrs (w_heap w))) in *.
    set (u3 := fst (step u2 (OSetGeometry o [("t_0", Some (PArr i)); ("t_ex", Some vt); ("p_ex", Some vp)]))) in *.
    set (u4 := fst (step u3 (OSetFlags o b (r_sig0 r) (r_dB r)))) in *.
    unfold analyze3d_update. unfold bind at 1. rewrite call_op_eq. rewrite update_out with (r := r) by exact Hr. cbn [op_res]. fold u1.
    assert (E1 : w_heap u1 = hput (w_heap w) o (upd_rec r kw)) by (apply step_update; exact Hr).
    assert (O1 : obj (w_heap u1) o = Ok (upd_rec r kw)) by (rewrite E1; eapply obj_hput_same; exact Hr).
    destruct Hg as (G1 & G2 & G3 & G4 & G5 & G6).
    assert (Pu := pre_upd w o r kw Hr U).
    assert (Rt : forall a x, read_ang (w_heap w) r a = Ok x -> m_ang o a u1 = (u1, Ok x)).
    { intros a x Ex. unfold m_ang, gets. rewrite O1. cbn [rbind]. f_equal. rewrite E1, Pu. exact Ex. }
    unfold getvals. unfold bind at 1. rewrite (Rt TEx t Dt).
    unfold bind at 1. rewrite (Rt PEx p Dp).
    unfold bind at 1. change (add_arr (mk_nd (shp t) (fun _ => Fin (inc * (PI / 180))%R)) u1) with (u2, Ok (length (h_arrs (w_heap u1)))).
    replace (length (h_arrs (w_heap u1))) with i by (rewrite E1; reflexivity).
    assert (O2 : obj (w_heap u2) o = Ok (upd_rec r kw)) by exact O1.
    assert (K : forall a va, r_ang r a = Some va -> keep_ang o a u2 = (u2, Ok (Some va))).
    { intros a va Ea. unfold keep_ang, bind, get_obj, gets, ret. rewrite O2, Pu. cbn [with_params r_ang]. now rewrite Ea. }
    unfold bind at 1. rewrite (K TEx vt G5). unfold bind at 1. rewrite (K PEx vp G6). unfold bind at 1. rewrite call_op_eq. fold u3.
    destruct (pre_state w o r b kw (full_t inc t) vt vp Hr (conj G1 (conj G2 (conj G3 (conj G4 (conj G5 G6))))) U Hc) as (_ & _ & _ & _ & _ & _ & _ & Ro & Oo).
    { rewrite slider_vals_keys. exact Hk. } { apply slider_vals_exist. }
    unfold pre_ops in Ro. rewrite !run_cons in Ro. cbn [run snd] in Ro. fold u1 in Ro. fold u2 in Ro. fold i in Ro. fold u3 in Ro. 
    assert (R3 : snd (step u2 (OSetGeometry o [("t_0", Some (PArr i)); ("t_ex", Some vt); ("p_ex", Some vp)])) = RetNone) by (clear - Ro; injection Ro; intros; assumption).
    rewrite R3. cbn [op_res].
    unfold pre_ops in Oo. cbn [firstn] in Oo. rewrite !run_cons in Oo. cbn [run fst] in Oo. fold u1 in Oo. fold u2 in Oo. fold i in Oo. fold u3 in Oo.
    set (r3 := with_ang _ _ _) in Oo.
    assert (Fl : r_intQ r3 = r_intQ r /\ r_sig0 r3 = r_sig0 r /\ r_dB r3 = r_dB r) by (unfold r3; rewrite Pu; repeat split).
    unfold cx_set_intq. unfold bind at 1. unfold get_obj at 1. unfold gets at 1. rewrite Oo. cbv zeta.
    assert (P1 : forall x, put_obj o x u3 = (fst (put_obj o x u3), Ok tt)) by reflexivity.
    assert (Q4 : fst (put_obj o (with_flags r3 b (r_sig0 r) (r_dB r)) u3) = u4).
    { unfold u4. cbn [step]. rewrite fst_as_out. unfold bind, get_obj, gets. rewrite Oo. reflexivity. }
    destruct Fl as (F1 & F2 & F3). rewrite F1.
    assert (X1 : (do r0 <- get_obj o ;; put_obj o (with_flags r0 (if index 0 "i" c then true else false) (r_sig0 r0) (r_dB r0)) ;;; call_op (OCalc o [])) u3 =
      (fst (step u4 (OCalc o [])), op_res (snd (step u4 (OCalc o []))))).
    { unfold bind at 1. unfold get_obj at 1. unfold gets at 1. rewrite Oo. unfold bind at 1. rewrite F2, F3. change (if index 0 "i" c then true else false) with b.
      rewrite P1, Q4. apply call_op_eq. }
    rewrite X1.
    destruct (good_eval _ _ (tidy_good _ _ (proj1 T3))) as (Hb & _ & E).
    destruct (eval_calc (w_heap u4) o _ nil O3) as [_ HA]. rewrite (upd_rec_nil _ _ _ Hb O3) in HA.
    destruct (obj_after _ _ _ _ _ O3 HA) as (r4 & R1 & R2 & _ & _). rewrite <- E in R1.
    set (u5 := fst (step u4 (OCalc o []))) in *.
    assert (Y : (do r0 <- get_obj o ;; put_obj o (with_flags r0 (r_intQ r) (r_sig0 r0) (r_dB r0))) u5 =
      (fst (step u5 (OSetFlags o (r_intQ r) (r_sig0 r) (r_dB r))), Ok tt)).
    { cbn [step]. rewrite fst_as_out. unfold bind, get_obj, gets. rewrite R1.
      assert (r_sig0 r4 = r_sig0 r /\ r_dB r4 = r_dB r) as [-> ->]; [|reflexivity].
      injection R2. intros. unfold rec3 in *. cbn in *. split; congruence. }
    rewrite Y. reflexivity.
  Qed.
  (** afterwards: only the incidence angle and the values of the parameters have changed *)
  Lemma one_after : only_values3 o (dkeys sl) w v /\ updatable v o.
  Proof.
    destruct (pre_state w o r b kw (full_t inc t) vt vp Hr Hg U Hc) as (O3 & B3 & S3 & Sc3 & A3 & C3 & T3 & _).
    { rewrite slider_vals_keys. exact Hk. } { apply slider_vals_exist. }
    set (u0 := w3 w o r b kw (full_t inc t) vt vp) in *. clearbody u0. destruct T3 as [T3 N3]. pose proof (tidy_good _ _ T3) as G.
    destruct (good_eval _ _ G) as (Hb & _ & E).
    destruct (eval_calc (w_heap u0) o _ nil O3) as [_ HA]. rewrite (upd_rec_nil _ _ _ Hb O3) in HA.
    destruct (obj_after _ _ _ _ _ O3 HA) as (r4 & R1 & R2 & R3 & R4). destruct HA as (rx & E2 & _). rewrite <- E in R1, R3, R4. rewrite E2 in E.
    set (u5 := fst (step u0 (OCalc o nil))) in *.
    assert (C5 : hclosed (w_heap u5)) by (apply step_closed; [exact C3|]; split; [intros o' Eo'; inversion Eo'; subst; apply has_obj_at; eauto|apply nil_exist]).
    assert (T5 : tidy u5 (OCalc o nil)) by (apply (tidy_snoc _ _ _ _ T3); auto; try (intros J; apply adm_calc_nil); exact I).
    assert (N5 : up_to_date r4).
    { apply (up_to_date_current _ _ _ O3) in N3. intros k Hk'.
      assert (X : fnev_next (w_heap u0) (rec3 r b kw (length (h_arrs (w_heap w))) vt vp) = Ok (Some k)) by (rewrite <- R4; unfold fnev_next; now rewrite Hk').
      assert (Ep : r_params r4 = r_params (rec3 r b kw (length (h_arrs (w_heap w))) vt vp)) by (injection R2; auto). rewrite Ep.
      destruct (r_fnev (rec3 r b kw (length (h_arrs (w_heap w))) vt vp)) as [k'|] eqn:Ek'.
      - unfold fnev_next in X. rewrite Ek' in X. injection X as <-. now apply N3.
      - eapply fnev_compiled; [exact Ek'| |exact X]. unfold rec3. rewrite (pre_upd w o r kw Hr U). exact Hi. }
    set (u6 := fst (step u5 (OSetFlags o (r_intQ r) (r_sig0 r) (r_dB r)))).
    assert (E6 : w_heap u6 = hput (w_heap u5) o (with_flags r4 (r_intQ r) (r_sig0 r) (r_dB r))).
    { unfold u6. cbn [step]. rewrite fst_as_out. unfold bind, get_obj, gets. rewrite R1. reflexivity. }
    assert (O6 : obj (w_heap u6) o = Ok (with_flags r4 (r_intQ r) (r_sig0 r) (r_dB r))) by (rewrite E6; eapply obj_hput_same; exact R1).
    destruct Hg as (G1 & G2 & G3 & G4 & G5 & G6).
    split; [split|split].
    - rewrite E6. change (h_be (w_heap u5) = h_be (w_heap w)). rewrite E. exact B3.
    - rewrite E6. change (h_seng (w_heap u5) = h_seng (w_heap w)). rewrite E. exact S3.
    - rewrite E6. change (h_scats (w_heap u5) = h_scats (w_heap w)). rewrite E. exact Sc3.
    - exists [full_t inc t]. rewrite E6. change (h_arrs (w_heap u5) = h_arrs (w_heap w) ++ [full_t inc t]). rewrite E. exact A3.
    - intros _. apply step_closed; [exact C5|]; split; [intros o' Eo'; inversion Eo'; subst; apply has_obj_at; eauto|exact I].
    - intros r0 Hr0. assert (r0 = r) by congruence. subst r0. eexists. split; [exact O6|].
      unfold rec3 in R2. rewrite (pre_upd w o r kw Hr U) in R2. clear E E2 E6 O6.
      pose proof (f_equal r_V R2) as F1. pose proof (f_equal r_SRF R2) as F2. pose proof (f_equal r_fn_input R2) as F3.
      pose proof (f_equal r_fnevals_input R2) as F4. pose proof (f_equal r_I0 R2) as F5. pose proof (f_equal r_def R2) as F6.
      pose proof (f_equal r_fixed R2) as F7. pose proof (f_equal r_mono R2) as F8. pose proof (f_equal r_geom R2) as F9.
      pose proof (f_equal r_ang R2) as F10. pose proof (f_equal r_params R2) as F11. clear R2.
      unfold like. cbn [with_flags r_V r_SRF r_intQ r_sig0 r_dB r_fn_input r_fnevals_input r_I0 r_def r_fixed r_mono r_geom r_ang r_params].
      cbn [strip with_fn with_fnev with_ang with_params with_flags r_V r_SRF r_intQ r_sig0 r_dB r_fn_input r_fnevals_input r_I0 r_def r_fixed r_mono r_geom r_ang r_params] in F1, F2, F3, F4, F5, F6, F7, F8, F9, F10, F11.
      rewrite F1, F2, F3, F4, F5, F6, F7, F8, F9, F10, F11.
      do 12 (split; [reflexivity|]).
      split.
      { intros a Ha. destruct a; try congruence; cbn; auto. }
      split; [apply dupdate_keys; rewrite dkeys_map, slider_vals_keys; exact Hk|].
      intros s Hs. apply dget_dupdate_out. now rewrite dkeys_map, slider_vals_keys.
    - apply (tidy_snoc _ _ _ _ T5); auto; try exact I; try (intros J; exact I); intros J; apply adm_calc_nil.
    - apply (up_to_date_current _ _ _ O6). exact N5.
  Qed.
  (** the values and the incidence angle that R is left with *)
  Lemma one_left : exists r', obj (w_heap v) o = Ok r' /\ r_params r' = dupdate (r_params r) (map (fun kv => (fst kv, S1d (snd kv))) kw) /\
    r_ang r' T0 = Some (PArr (length (h_arrs (w_heap w)))) /\ h_arrs (w_heap v) = h_arrs (w_heap w) ++ [full_t inc t].
  Proof.
    destruct (pre_state w o r b kw (full_t inc t) vt vp Hr Hg U Hc) as (O3 & _ & _ & _ & A3 & _ & T3 & _).
    { rewrite slider_vals_keys. exact Hk. } { apply slider_vals_exist. }
    set (u0 := w3 w o r b kw (full_t inc t) vt vp) in *. clearbody u0. destruct T3 as [T3 N3]. pose proof (tidy_good _ _ T3) as G.
    destruct (good_eval _ _ G) as (Hb & _ & E).
    destruct (eval_calc (w_heap u0) o _ nil O3) as [_ HA]. rewrite (upd_rec_nil _ _ _ Hb O3) in HA.
    destruct (obj_after _ _ _ _ _ O3 HA) as (r4 & R1 & R2 & R3 & R4). destruct HA as (rx & E2 & _). rewrite <- E in R1, R3, R4. rewrite E2 in E.
    set (u5 := fst (step u0 (OCalc o nil))) in *.
    set (u6 := fst (step u5 (OSetFlags o (r_intQ r) (r_sig0 r) (r_dB r)))).
    assert (E6 : w_heap u6 = hput (w_heap u5) o (with_flags r4 (r_intQ r) (r_sig0 r) (r_dB r))).
    { unfold u6. cbn [step]. rewrite fst_as_out. unfold bind, get_obj, gets. rewrite R1. reflexivity. }
    exists (with_flags r4 (r_intQ r) (r_sig0 r) (r_dB r)). split; [rewrite E6; eapply obj_hput_same; exact R1|].
    unfold rec3 in R2. rewrite (pre_upd w o r kw Hr U) in R2.
    pose proof (f_equal r_ang R2) as F10. pose proof (f_equal r_params R2) as F11. clear R2.
    cbn [strip with_fn with_fnev with_ang with_params with_flags r_ang r_params] in F10, F11 |- *.
    split; [exact F11|]. split; [rewrite F10; reflexivity|].
    rewrite E6. change (h_arrs (w_heap u5) = h_arrs (w_heap w) ++ [full_t inc t]). rewrite E. exact A3.
  Qed.
End One.

(** ** Any number of updates *)
Lemma like_grid N r r' vt vp : like N r r' -> grid r vt vp -> grid r' vt vp.
Proof.
  intros (_ & _ & _ & _ & _ & _ & _ & _ & _ & F & M & _ & A & _) (G1 & G2 & G3 & G4 & G5 & G6). unfold grid. rewrite F, M, !A by discriminate. auto 10.
Qed.
Lemma like_trans N r1 r2 r3 : like N r1 r2 -> like N r2 r3 -> like N r1 r3.
Proof.
  intros (A1 & A2 & A3 & A4 & A5 & A6 & A7 & A8 & A9 & A10 & A11 & A12 & A13 & A14 & A15) (B1 & B2 & B3 & B4 & B5 & B6 & B7 & B8 & B9 & B10 & B11 & B12 & B13 & B14 & B15).
  unfold like. repeat (split; [congruence|]). split; [intros a Ha; now rewrite B13, A13|]. split; [congruence|]. intros s Hs. now rewrite B15, A15.
Qed.
Lemma ov3_trans o N w1 w2 w3 : only_values3 o N w1 w2 -> only_values3 o N w2 w3 -> only_values3 o N w1 w3.
Proof.
  intros [A1 A2 A3 (x & A4) A5 A6] [B1 B2 B3 (y & B4) B5 B6]. split; try congruence; auto.
  - exists (x ++ y). rewrite B4, A4. now rewrite app_assoc.
  - intros r Hr. destruct (A6 r Hr) as (r2 & H2 & L2). destruct (B6 r2 H2) as (r3 & H3 & L3). exists r3. split; [exact H3|]. eapply like_trans; eassumption.
Qed.
Lemma ov3_read o N w w' r r' a : only_values3 o N w w' -> closed (w_heap w) r -> like N r r' -> r_mono r = false -> a <> T0 ->
  read_ang (w_heap w') r' a = read_ang (w_heap w) r a.
Proof.
  intros V C L Mo Na. destruct (o3_arrs _ _ _ _ V) as (ext & E). destruct L as (_ & _ & _ & _ & _ & _ & _ & _ & _ & _ & M & _ & A & _).
  assert (Q : forall b, b <> T0 -> stored_ang (w_heap w') r' b = stored_ang (w_heap w) r b).
  { intros b Hb. unfold stored_ang. rewrite A by exact Hb. destruct (r_ang r b) as [v|] eqn:Ev; [|reflexivity].
    rewrite (deref_ext _ _ _ _ E); [reflexivity|]. eapply cl_ang; eassumption. }
  unfold read_ang. rewrite M, Mo. destruct a; try congruence; now apply Q.
Qed.

Section Base.
  Context (w : world) (o : nat) (N : list string) (r : rt1) (vt vp : pyval) (t p : nd xr).
  Hypothesis (Hr : obj (w_heap w) o = Ok r) (Hg : grid r vt vp) (Hc : hclosed (w_heap w)).
  Hypothesis (HN : incl N (dkeys (r_params r))) (Hi : r_fnevals_input r = None) (Dt : read_ang (w_heap w) r TEx = Ok t) (Dp : read_ang (w_heap w) r PEx = Ok p).

  Lemma later3 w' : only_values3 o N w w' -> exists r', obj (w_heap w') o = Ok r' /\ like N r r' /\ grid r' vt vp /\ hclosed (w_heap w') /\
    incl N (dkeys (r_params r')) /\ r_fnevals_input r' = None /\ read_ang (w_heap w') r' TEx = Ok t /\ read_ang (w_heap w') r' PEx = Ok p.
  Proof.
    intros V. destruct (o3_obj _ _ _ _ V r Hr) as (r' & Hr' & L). exists r'. split; [exact Hr'|]. split; [exact L|]. split; [eapply like_grid; eassumption|].
    split; [now apply (o3_closed _ _ _ _ V)|]. pose proof (Hc _ _ Hr) as Cl. destruct Hg as (Mo & _).
    split; [destruct L as (_ & _ & _ & _ & _ & _ & _ & _ & _ & _ & _ & _ & _ & -> & _); exact HN|].
    split; [destruct L as (_ & _ & _ & _ & _ & _ & -> & _); exact Hi|].
    split; rewrite (ov3_read o N w w' r r' _ V Cl L Mo) by discriminate; assumption.
  Qed.
  Lemma update3 w' c sl inc : dkeys sl = N -> only_values3 o N w w' -> updatable w' o ->
    only_values3 o N w (fst (analyze3d_update o c sl inc w')) /\ updatable (fst (analyze3d_update o c sl inc w')) o.
  Proof.
    intros K V U. destruct (later3 w' V) as (r' & Hr' & L & G' & C' & I' & J' & T' & P').
    rewrite <- K in I'. rewrite (one_update w' o r' vt vp c sl inc t p Hr' G' U C' I' T' P'). cbn [fst].
    destruct (one_after w' o r' vt vp c sl inc t Hr' G' U C' I' J') as [V2 U2]. rewrite K in V2. split; [eapply ov3_trans; eassumption|exact U2].
  Qed.

  Section Two.
    Context (w1 w2 : world) (c : string) (sl : dict slider) (inc : R).
    Hypothesis (K : dkeys sl = N) (V1 : only_values3 o N w w1) (U1 : updatable w1 o) (V2 : only_values3 o N w w2) (U2 : updatable w2 o).
    Lemma later_state w' : only_values3 o N w w' -> updatable w' o -> exists r' r4 P,
      obj (w_heap w') o = Ok r' /\ like N r r' /\ snd (analyze3d_update o c sl inc w') = op_res (snd (step (w3 w' o r' (shows_interaction c) (slider_vals sl) (full_t inc t) vt vp) (OCalc o nil))) /\
      let u := w3 w' o r' (shows_interaction c) (slider_vals sl) (full_t inc t) vt vp in
      obj (w_heap u) o = Ok r4 /\ h_be (w_heap u) = h_be (w_heap w) /\ h_seng (w_heap u) = h_seng (w_heap w) /\ h_scats (w_heap u) = h_scats (w_heap w) /\
      (exists ext, h_arrs (w_heap u) = h_arrs (w_heap w) ++ ext) /\ updatable u o /\ r_params r4 = dupdate P (map (fun kv => (fst kv, S1d (snd kv))) (slider_vals sl)) /\
      dkeys P = dkeys (r_params r) /\ (forall s, ~ In s N -> dget P s = dget (r_params r) s) /\
      r_V r4 = r_V r /\ r_SRF r4 = r_SRF r /\ r_intQ r4 = shows_interaction c /\ r_sig0 r4 = r_sig0 r /\ r_dB r4 = r_dB r /\ r_fn_input r4 = r_fn_input r /\
      r_fnevals_input r4 = None /\ r_I0 r4 = r_I0 r /\ r_def r4 = r_def r /\ r_geom r4 = r_geom r /\
      (forall a, read_ang (w_heap u) r4 a = match a with T0 => Ok (atleast_1d (full_t inc t)) | _ => read_ang (w_heap w) r a end) /\
      exists d, params_nd (w_heap u) r4 = Ok d.
    Proof.
      intros V U. destruct (later3 w' V) as (r' & Hr' & L & G' & C' & I' & J' & T' & P'). rewrite <- K in I'.
      exists r', (rec3 r' (shows_interaction c) (slider_vals sl) (length (h_arrs (w_heap w'))) vt vp), (r_params r').
      split; [exact Hr'|]. split; [exact L|].
      split; [rewrite (one_update w' o r' vt vp c sl inc t p Hr' G' U C' I' T' P'); reflexivity|].
      destruct (pre_state w' o r' (shows_interaction c) (slider_vals sl) (full_t inc t) vt vp Hr' G' U C') as (O3 & B3 & S3 & Sc3 & A3 & C3 & T3 & _).
      { rewrite slider_vals_keys. exact I'. } { apply slider_vals_exist. }
      set (u := w3 w' o r' (shows_interaction c) (slider_vals sl) (full_t inc t) vt vp) in *. clearbody u. cbv zeta.
      destruct (o3_arrs _ _ _ _ V) as (ext & E).
      split; [exact O3|]. split; [rewrite B3; apply V|]. split; [rewrite S3; apply V|]. split; [rewrite Sc3; apply V|].
      split; [exists (ext ++ [full_t inc t]); rewrite A3, E; now rewrite app_assoc|]. split; [exact T3|].
      pose proof (pre_upd w' o r' (slider_vals sl) Hr' U) as Pu. pose proof (C3 _ _ O3) as Cl4.
      assert (Pd : exists d, params_nd (w_heap u) (rec3 r' (shows_interaction c) (slider_vals sl) (length (h_arrs (w_heap w'))) vt vp) = Ok d).
      { destruct (rmap_total (fun kv => let* a := sderef (w_heap u) (snd kv) in Ok (fst kv, a)) (r_params (rec3 r' (shows_interaction c) (slider_vals sl) (length (h_arrs (w_heap w'))) vt vp))) as (d & Ed).
        { intros [k v] Hin. pose proof (cl_par _ _ Cl4 _ _ Hin) as Hv. apply has_val_deref in Hv. destruct Hv as (a & Ha).
          destruct v as [v|v]; cbn [sv_val sderef snd fst] in *; rewrite Ha; eexists; reflexivity. }
        exists d. exact Ed. }
      unfold rec3 in *. rewrite Pu in *.
      cbn [with_flags with_ang with_params r_V r_SRF r_intQ r_sig0 r_dB r_fn_input r_fnevals_input r_I0 r_def r_fixed r_mono r_geom r_params] in *.
      destruct L as (A1 & A2 & A3' & A4 & A5 & A6 & A7 & A8 & A9 & A10 & A11 & A12 & A13 & A14 & A15).
      split; [reflexivity|]. split; [exact A14|]. split; [exact A15|].
      do 6 (split; [first [assumption|reflexivity]|]). split; [exact J'|]. do 3 (split; [assumption|]).
      split; [|exact Pd].
      pose proof (Hc _ _ Hr) as Cl. destruct Hg as (Mo & _ & _ & _ & Gt & Gp).
      assert (DV : forall v, has_val (w_heap w) v -> deref (w_heap u) v = deref (w_heap w) v).
      { intros v Hv. apply (deref_ext _ _ (ext ++ [full_t inc t])); [|exact Hv]. rewrite A3, E. now rewrite app_assoc. }
      intros a. unfold read_ang, stored_ang. cbn [with_flags with_ang with_params r_mono r_ang]. rewrite A11, Mo. destruct a; cbn [angle_eqb].
      - cbn [deref rbind]. rewrite A3, nth_error_app2, Nat.sub_diag by lia. reflexivity.
      - rewrite Gt. rewrite DV; [reflexivity|]. eapply cl_ang; eassumption.
      - rewrite A13 by discriminate. destruct (r_ang r P0) as [v|] eqn:Ev; [|reflexivity]. rewrite DV; [reflexivity|]. eapply cl_ang; eassumption.
      - rewrite Gp. rewrite DV; [reflexivity|]. eapply cl_ang; eassumption.
    Qed.
    Lemma same3 : snd (analyze3d_update o c sl inc w1) = snd (analyze3d_update o c sl inc w2).
    Proof.
      destruct (later_state w1 V1 U1) as (r1 & q1 & P1 & H1 & L1 & E1 & X1).
      destruct (later_state w2 V2 U2) as (r2 & q2 & P2 & H2 & L2 & E2 & X2).
      rewrite E1, E2. f_equal.
      set (u1 := w3 w1 o r1 _ _ _ _ _) in *. set (u2 := w3 w2 o r2 _ _ _ _ _) in *. clearbody u1 u2. cbv zeta in X1, X2.
      destruct X1 as (O1 & B1 & S1 & Sc1 & (x1 & Ar1) & (T1 & N1) & Q1 & Kp1 & Eo1 & F1 & F2 & F3 & F4 & F5 & F6 & F7 & F8 & F9 & F10 & R1 & d1 & D1).
      destruct X2 as (O2 & B2 & S2 & Sc2 & (x2 & Ar2) & (T2 & N2) & Q2 & Kp2 & Eo2 & G1 & G2 & G3 & G4 & G5 & G6 & G7 & G8 & G9 & G10 & R2 & d2 & D2).
      apply C12_calc_partial; auto.
      exists q1, q2. split; [exact O1|]. split; [exact O2|]. split; [congruence|]. split; [congruence|].
      assert (Sc : forall x, scat_at (w_heap u1) x = scat_at (w_heap u2) x) by (intros x; unfold scat_at; rewrite Sc1, Sc2; reflexivity).
      pose proof (Hc _ _ Hr) as Cl.
      assert (DR : forall v, has_val (w_heap w) v -> deref (w_heap u1) v = deref (w_heap u2) v).
      { intros v Hv. rewrite (deref_ext _ _ _ _ Ar1 Hv), (deref_ext _ _ _ _ Ar2 Hv). reflexivity. }
      rewrite F1, F2, F3, F4, F5, F6, F7, F8, F9, F10, G1, G2, G3, G4, G5, G6, G7, G8, G9, G10.
      split; [apply Sc|]. split; [apply Sc|]. do 4 (split; [reflexivity|]). split; [reflexivity|]. split; [reflexivity|].
      split; [apply DR; apply Cl|].
      split.
      { intros y. destruct (r_def r y) as [v| |] eqn:Ed; try reflexivity. cbn [cdef_of]. f_equal. apply DR. eapply cl_def; eassumption. }
      split; [reflexivity|]. split.
      { intros a. rewrite (read_angle_out _ _ _ _ O1), (read_angle_out _ _ _ _ O2). f_equal. now rewrite R1, R2. }
      exists d1, d2.
      split; [cbn [step]; rewrite snd_as_out; unfold gets; cbn [snd]; rewrite O1; cbn [rbind]; now rewrite D1|].
      split; [cbn [step]; rewrite snd_as_out; unfold gets; cbn [snd]; rewrite O2; cbn [rbind]; now rewrite D2|].
      intros s. rewrite (PlotFacts.params_nd_get _ _ _ s D1), (PlotFacts.params_nd_get _ _ _ s D2), Q1, Q2.
      destruct (in_dec string_dec s N) as [i|n].
      - destruct (dget_same_kw _ _ _ _ s (same_slider_vals (w_heap u1) (w_heap u2) sl) ltac:(rewrite slider_vals_keys, K; exact i) P1 P2) as (v1 & v2 & -> & -> & Ev).
        cbn [sderef]. rewrite Ev. reflexivity.
      - rewrite !dget_dupdate_out by (rewrite dkeys_map, slider_vals_keys; congruence). rewrite Eo1, Eo2 by assumption.
        destruct (dget (r_params r) s) as [v|] eqn:Ev; [|reflexivity]. apply dget_dict_In in Ev. pose proof (cl_par _ _ Cl _ _ Ev) as Hv.
        destruct v as [v|v]; cbn [sv_val sderef] in *; rewrite (DR v Hv); reflexivity.
    Qed.
  End Two.
End Base.
