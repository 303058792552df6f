(** What one reads from an object after an evaluation without keyword arguments: the same as before. *)
From Coquelicot Require Import Coquelicot.
From Coq Require Import Lia List.
From Verif Require Import SpecScat SpecExp SpecInt Flip.
From Verif Require Export Properties4 CalcOk.
Open Scope string_scope.
Open Scope nat_scope.
Open Scope list_scope.

Section SameReads.
  Context (w1 w2 : world) (q1 q2 : op) (o : nat) (C : config) (fe1 fe2 : res (option compiled)).
  Hypothesis (G1 : good w1 q1) (G2 : good w2 q2) (H1 : at_conf w1 o C fe1) (H2 : at_conf w2 o C fe2).
  Lemma same_angle b a : obs_angle w2 o b a <-> obs_angle w1 o b a.
  Proof. rewrite (c_angle w1 q1 o C fe1 G1 H1), (c_angle w2 q2 o C fe2 G2 H2). tauto. Qed.
  Lemma same_param b a : obs_param w2 o b a <-> obs_param w1 o b a.
  Proof. rewrite (c_param w1 q1 o C fe1 G1 H1), (c_param w2 q2 o C fe2 G2 H2). tauto. Qed.
  Lemma same_I0 a : obs_I0 w2 o a <-> obs_I0 w1 o a.
  Proof. rewrite (c_I0_obs w1 o C fe1 H1), (c_I0_obs w2 o C fe2 H2). tauto. Qed.
  Lemma same_scat b a : obs_scat w2 o b a <-> obs_scat w1 o b a.
  Proof. rewrite (c_scat w1 q1 o C fe1 G1 H1), (c_scat w2 q2 o C fe2 G2 H2). tauto. Qed.
  Lemma same_dict d : snd (step w2 (OParamDict o)) = RetDict d <-> snd (step w1 (OParamDict o)) = RetDict d.
  Proof. rewrite (c_dict w1 q1 o C fe1 G1 H1), (c_dict w2 q2 o C fe2 G2 H2). tauto. Qed.
  Lemma same_point i x : at_point w1 o i x -> at_point w2 o i x.
  Proof.
    intros (A1 & A2 & A3 & A4 & A5 & A6 & A7 & A8 & A9). unfold at_point.
    split; [intros a Ha; apply A1; now apply same_I0|].
    split; [intros a Ha; apply A2; now apply same_angle|].
    split; [intros a Ha; apply A3; now apply same_angle|].
    split; [intros a Ha; apply A4; now apply same_param|].
    split; [intros a Ha; apply A5; now apply same_param|].
    split; [intros a Ha; apply A6; now apply same_param|].
    split; [intros a Ha; apply A7; now apply same_param|].
    split; [intros a Ha; apply A8; now apply same_scat|intros a Ha; apply A9; now apply same_scat].
  Qed.
  Lemma same_named i f : named w1 o i f -> named w2 o i f.
  Proof.
    intros (A1 & A2 & A3 & A4 & A5). unfold named.
    split; [intros a Ha; apply A1; now apply same_angle|].
    split; [intros a Ha; apply A2; now apply same_angle|].
    split; [intros a Ha; apply A3; now apply same_angle|].
    split; [intros a Ha; apply A4; now apply same_angle|].
    intros d k a Hd. apply A5. now apply same_dict.
  Qed.
  Lemma same_flat : fe1 = fe2 -> flat w1 o -> flat w2 o.
  Proof.
    intros Ef (m & A1 & A2 & A3 & A4). exists m.
    split; [intros b a Ha; apply (A1 b); now apply same_angle|].
    split; [intros a Ha; apply A2; now apply same_param|].
    split; [intros d k a Hd; apply A3; now apply same_dict|].
    destruct A4 as [->|[A4 (r & k & Hr & Ek & Fk)]]; [now left|right]. split.
    - intros a Ha. apply A4. destruct Ha as [Ha|Ha]; [left|right]; now apply same_angle.
    - destruct H1 as (r1 & Hr1 & _ & E1). destruct H2 as (r2 & Hr2 & _ & E2). exists r2, k. split; [exact Hr2|]. split; [|exact Fk].
      rewrite Hr in Hr1. injection Hr1 as <-. congruence.
  Qed.
End SameReads.

Lemma calc_state w o r : good w (OCalc o nil) -> obj (w_heap w) o = Ok r ->
  let w' := fst (step w (OCalc o nil)) in
  exists r', obj (w_heap w') o = Ok r' /\ strip r' = strip r /\ h_scats (w_heap w') = h_scats (w_heap w) /\
    conf (w_heap w') r' = conf (w_heap w) r /\ fnev_next (w_heap w') r' = fnev_next (w_heap w) r.
Proof.
  intros G Hr w'. destruct (good_eval _ _ G) as (Hb & _ & E).
  destruct (eval_calc (w_heap w) o r nil Hr) as [_ HA]. rewrite (upd_rec_nil _ _ _ Hb Hr) in HA.
  destruct (obj_after _ _ _ _ _ Hr HA) as (r' & R1 & R2 & R3 & R4). destruct HA as (r2 & E2 & _).
  exists r'. unfold w'. rewrite E. split; [exact R1|]. split; [exact R2|]. split; [|split; [exact R3|exact R4]]. rewrite E2. reflexivity.
Qed.
Lemma strip_fields a b : strip a = strip b -> r_mono a = r_mono b /\ r_fixed a = r_fixed b /\ r_V a = r_V b /\ r_SRF a = r_SRF b /\
  r_fn_input a = r_fn_input b /\ r_fnevals_input a = r_fnevals_input b /\ r_intQ a = r_intQ b /\ r_sig0 a = r_sig0 b /\ r_dB a = r_dB b.
Proof. destruct a, b; unfold strip, with_fnev, with_fn; simpl; intros H; inversion H; subst; auto 20. Qed.
Lemma sample_after w o i x f V SRF : good w (OCalc o nil) -> sample w o i x f V SRF -> sample (fst (step w (OCalc o nil))) o i x f V SRF.
Proof.
  intros G (P & NM & (r1 & Hr & EV) & (r2 & Hr2 & ES) & UV & US & FL & (r3 & Hr3 & N1 & N2) & Rest).
  rewrite Hr in Hr2, Hr3. injection Hr2 as <-. injection Hr3 as <-.
  destruct (calc_state w o r1 G Hr) as (r' & R1 & R2 & R3 & R4 & R5). destruct (strip_fields _ _ R2) as (Q1 & Q2 & Q3 & Q4 & Q5 & Q6 & _).
  set (w' := fst (step w (OCalc o nil))) in *.
  assert (G' : good w' (OCalc o nil)) by (apply good_next; [assumption|]; intros J; apply adm_nil).
  assert (H1 : at_conf w o (conf (w_heap w) r1) (fnev_next (w_heap w) r1)) by (exists r1; auto).
  assert (H2 : at_conf w' o (conf (w_heap w) r1) (fnev_next (w_heap w') r')) by (exists r'; auto).
  split; [exact (same_point w w' _ _ o _ _ _ G G' H1 H2 i x P)|]. split; [exact (same_named w w' _ _ o _ _ _ G G' H1 H2 i f NM)|].
  split. { exists r'. split; [exact R1|]. unfold scat_at in *. rewrite R3. cbn [scat_id] in *. rewrite Q3. exact EV. }
  split. { exists r'. split; [exact R1|]. unfold scat_at in *. rewrite R3. cbn [scat_id] in *. rewrite Q4. exact ES. }
  split; [exact UV|]. split; [exact US|]. split; [exact (same_flat w w' _ _ o _ _ _ G G' H1 H2 (eq_sym R5) FL)|]. split; [|exact Rest].
  exists r'. split; [exact R1|]. split; congruence.
Qed.
Lemma flags_after w o a b c : good w (OCalc o nil) -> obs_flags w o a b c -> obs_flags (fst (step w (OCalc o nil))) o a b c.
Proof.
  intros G (r & Hr & A1 & A2 & A3). destruct (calc_state w o r G Hr) as (r' & R1 & R2 & R3 & R4). destruct (strip_fields _ _ R2) as (_ & _ & _ & _ & _ & _ & Q).
  exists r'. split; [exact R1|]. intuition congruence.
Qed.
Lemma mode_after w o m : good w (OCalc o nil) -> obs_mode w o m -> obs_mode (fst (step w (OCalc o nil))) o m.
Proof.
  intros G (r & Hr & A1). destruct (calc_state w o r G Hr) as (r' & R1 & R2 & R3 & R4). destruct (strip_fields _ _ R2) as (Q & _).
  exists r'. split; [exact R1|]. congruence.
Qed.
Lemma fixed_after w o b : good w (OCalc o nil) -> obs_fixed (fst (step w (OCalc o nil))) o b -> (exists r, obj (w_heap w) o = Ok r) -> obs_fixed w o b.
Proof.
  intros G (r' & Hr' & F) (r & Hr). destruct (calc_state w o r G Hr) as (r2 & R1 & R2 & R3 & R4). destruct (strip_fields _ _ R2) as (_ & Q & _).
  exists r. split; [exact Hr|]. unfold is_fixed in *. rewrite Hr' in R1. injection R1 as <-. now rewrite <- Q.
Qed.
Lemma fixed_after' w o b : good w (OCalc o nil) -> obs_fixed w o b -> obs_fixed (fst (step w (OCalc o nil))) o b.
Proof.
  intros G (r & Hr & F). destruct (calc_state w o r G Hr) as (r2 & R1 & R2 & R3 & R4). destruct (strip_fields _ _ R2) as (_ & Q & _).
  exists r2. split; [exact R1|]. unfold is_fixed in *. now rewrite Q.
Qed.
