(** Interaction contribution: from the program without caches to the calls of the program. *)
From Coquelicot Require Import Coquelicot.
From Coq Require Import Lia List.
From Verif Require Import SpecExp SpecInt.
From Verif Require Export Interact3.
Open Scope string_scope.
Open Scope nat_scope.
Open Scope list_scope.

(** ** Histories
    [tidy w p]: state [w], call [p] after an admissible history in which R.V and R.SRF are not
    reassigned (see C06) and angles fixed by set_monostatic/set_bistatic are numbers (see C10) *)
Definition tidy (w : world) (p : op) : Prop :=
  exists seng ps, adm nil (init seng true) (ps ++ p :: nil) /\
    Forall (fun q => ~ reassigns q /\ num_arg q) (ps ++ p :: nil) /\ w = fst (run (init seng true) ps).
Lemma tidy_good w p : tidy w p -> good w p.
Proof. intros (seng & ps & A & _ & E). exists seng, ps. auto. Qed.
Lemma tidy_inv w p : tidy w p -> Finv (w_heap w) /\ Ginv (w_heap w) /\
  Finv (w_heap (fst (step w p))) /\ Ginv (w_heap (fst (step w p))).
Proof.
  intros (seng & ps & _ & F & ->). apply Forall_app in F. destruct F as [F Fp]. inversion Fp as [|? ? [N A] _]; subst.
  assert (F1 : Finv (w_heap (fst (run (init seng true) ps)))).
  { apply run_Finv; [|apply Finv_init]. eapply Forall_impl; [|exact F]. cbv beta. tauto. }
  assert (F2 : Ginv (w_heap (fst (run (init seng true) ps)))).
  { apply run_Ginv; [|apply Ginv_init]. eapply Forall_impl; [|exact F]. cbv beta. tauto. }
  split; [exact F1|]. split; [exact F2|]. split; [now apply step_Finv|now apply step_Ginv].
Qed.
(** the measurement mode of the object (see [mode_of_run] for what it is in terms of the history) *)
Definition obs_mode (w : world) (o : nat) (mono : bool) : Prop := exists r, obj (w_heap w) o = Ok r /\ r_mono r = mono.
Lemma obs_mode_hist seng on ps o m : mode_of (trace (init seng on) ps) o = Some m <-> obs_mode (fst (run (init seng on) ps)) o m.
Proof.
  rewrite mode_of_run. unfold obs_mode. destruct (obj _ o) as [r|]; [|split; [discriminate|intros (r & E & _); discriminate]].
  split; [intros H; inversion H; eauto|intros (r' & E & <-); inversion E; reflexivity].
Qed.
(** the object computes its own fn-coefficients: RT1(...) was called without fn_input and _fnevals_input *)
Definition own_fn (w : world) (o : nat) : Prop :=
  exists r, obj (w_heap w) o = Ok r /\ r_fn_input r = None /\ r_fnevals_input r = None.
(** the angles fixed by the last set_monostatic/set_bistatic *)
Definition obs_fixed (w : world) (o : nat) (a : angle) : Prop := exists r, obj (w_heap w) o = Ok r /\ is_fixed r a.

(** ** Row 3 of calc() and interaction() *)
Section Rows.
  Context (w : world) (q : op) (o : nat) (C : config) (fe : res (option compiled)).
  Hypothesis (G : good w q) (Hc : at_conf w o C fe).
  Context (i : list nat) (x : point).
  Hypothesis (P : at_point w o i x) (sg : bool) (Fsg : c_sig0 C = sg) (Hi0 : sg = true -> p_I0 x <> 0%R).
  Lemma row3 a : p_calc C fe = Ok a -> valid_idx (shp (row a 0)) i -> c_intQ C = true -> (0 < p_tau x)%R ->
    exists s, p_interaction C fe = Ok s /\ shp s = shp (row a 0) /\
      forall v, bget s i = Fin v -> get (row a 3) i = in_units (c_dB C) (v * unit_factor sg x).
  Proof.
    intros H. destruct (p_calc_rows _ _ _ H) as (tau & b & isurf & i0 & mu0 & ivol & iint & Et & Es & Ei & Em & Bi & Bm & Sv & Hv & Hi & Sa & Hget).
    rewrite (row_shp _ _ _ 0 Sa). intros V Q Tp. destruct (Hget i V) as (_ & _ & G3 & _). cbn [row get].
    rewrite Fsg in *. rewrite (el_I0 w o C fe Hc i x P _ Ei), (el_mu0 w q o C fe G Hc i x P _ Em) in *. specialize (G3 Q). destruct (Hi Q) as [Si X].
    pose proof (el_param w q o C fe G Hc i x P _ _ (p_val_eval _ _ _ _ Et)) as Etau. cbn beta iota in Etau.
    assert (Off : off C tau b = false).
    { unfold off. destruct b; [|reflexivity]. cbn [andb].
      assert (St : shp tau = nil) by (destruct Hc as (r & _ & -> & _); eapply p_eval_num; eassumption).
      unfold bget in Etau. rewrite St in Etau. replace (proj nil i) with (@nil nat) in Etau by (destruct i; reflexivity). rewrite Etau. simpl.
      destruct (Rlt_dec 0 (p_tau x)); [reflexivity|contradiction]. }
    rewrite Off in X. destruct b.
    - exists iint. split; [exact X|]. split; [congruence|]. intros v Ev. rewrite G3. rewrite bget_valid in Ev by congruence. rewrite Ev. now apply in_units_conv.
    - destruct X as (y & Ey & Fy). destruct (k_fix_nan_spec _ _ _ Fy) as [Sf Hf]. assert (Sy : shp y = shp isurf) by congruence.
      exists y. split; [exact Ey|]. split; [congruence|]. intros v Ev. rewrite bget_valid in Ev by congruence. rewrite G3.
      destruct (Hf i) as [->|(N & _)]; [congruence| |congruence]. rewrite Ev. now apply in_units_conv.
  Qed.
  Lemma int_call a : (let* v := p_interaction C fe in p_convert C v) = Ok a -> valid_idx (shp a) i ->
    exists s, p_interaction C fe = Ok s /\ shp s = shp a /\
      forall v, bget s i = Fin v -> get a i = in_units (c_dB C) (v * unit_factor sg x).
  Proof.
    intros H V. destruct (p_interaction C fe) as [s|] eqn:Es; [|discriminate]. cbn [rbind] in H. exists s. split; [reflexivity|].
    destruct (p_interaction_inv _ _ _ Es) as (j0 & m0 & e0 & t & o0 & n0 & bb0 & f1 & f2 & (I1 & I2 & I3 & I4) & K1 & K2 & I7 & I8 & I9 & K0).
    apply k_interaction_ble in K0. destruct (p_convert_el _ _ _ H) as (Sh & _ & E).
    { intros i0 mu0 E1 E2. rewrite I1 in E1. rewrite I2 in E2. inversion E1; inversion E2; subst. split; apply K0. }
    split; [congruence|]. intros v Ev. rewrite (E i j0 m0 I1 I2) by congruence. rewrite bget_valid in Ev by congruence.
    rewrite Ev, Fsg, (el_I0 w o C fe Hc i x P _ I1), (el_mu0 w q o C fe G Hc i x P _ I2). now apply in_units_conv.
  Qed.
End Rows.
