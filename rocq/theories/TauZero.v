(** The interaction contribution at tau = 0 and at normal incidence (_calc.py:524-549, 1067-1087). *)
From Coquelicot Require Import Coquelicot.
From Coq Require Import Lia List.
From Verif Require Import SpecExp SpecInt.
From Verif Require Export Properties11.
Open Scope string_scope.
Open Scope nat_scope.
Open Scope list_scope.

(** ** Hypotheses on a position: as [sample] without restricting the values *)
Definition inputs_at (w : world) (o : nat) (i : list nat) (x : point) (f : string -> R) (V SRF : scat) : Prop :=
  at_point w o i x /\ named w o i f /\ obs_fun w o WV V /\ obs_fun w o WSRF SRF /\ usable f V /\ usable f SRF /\
  flat w o /\ own_fn w o.
(** tau >= 0 and cosines in (0, 1] *)
Definition admissible (x : point) : Prop :=
  (0 < cos (p_t0 x) <= 1)%R /\ (0 < cos (p_tex x) <= 1)%R /\ (0 <= p_tau x)%R.
(** away from the boundary *)
Definition inside (x : point) : Prop := (0 < p_tau x /\ cos (p_t0 x) < 1 /\ cos (p_tex x) < 1)%R.
Lemma inside_dec x : {inside x} + {~ inside x}.
Proof.
  unfold inside. destruct (Rlt_dec 0 (p_tau x)); [|right; tauto]. destruct (Rlt_dec (cos (p_t0 x)) 1); [|right; tauto].
  destruct (Rlt_dec (cos (p_tex x)) 1); [left|right]; tauto.
Qed.

Section Elem.
  Context (w : world) (q : op) (o : nat) (r : rt1) (i : list nat) (x : point) (f : string -> R) (V SRF : scat).
  Hypothesis (G : good w q) (Hr : obj (w_heap w) o = Ok r) (FI : Finv (w_heap w)) (GI : geom_ok r).
  Hypothesis (H : inputs_at w o i x f V SRF) (A : admissible x).
  Notation C := (conf (w_heap w) r).
  Notation fe := (fnev_next (w_heap w) r).
  Context (s : nd xr) (Hs : p_interaction C fe = Ok s).
  Lemma elem_interior : inside x -> exists v, bget s i = Fin v.
  Proof.
    intros (T & I1 & I2). destruct H as (P & NM & (r1 & Hr1 & EV) & (r2 & Hr2 & ES) & UV & US & FL & (r3 & Hr3 & N1 & N2)). destruct A as (A1 & A2 & A3).
    rewrite Hr in Hr1, Hr2, Hr3. injection Hr1 as <-. injection Hr2 as <-. injection Hr3 as <-.
    destruct (inter_val w q o r i x f V SRF G Hr FI GI N1 N2 EV ES UV US NM FL P) with (s := s) as (F1 & F2 & E & _); try assumption; try tauto. eauto.
  Qed.
  Lemma elem_boundary : ~ inside x -> bget s i = NaN.
  Proof.
    intros NI. destruct H as (P & NM & (r1 & Hr1 & EV) & (r2 & Hr2 & ES) & UV & US & FL & (r3 & Hr3 & N1 & N2)). destruct A as (A1 & A2 & A3).
    rewrite Hr in Hr1, Hr2, Hr3. injection Hr1 as <-. injection Hr2 as <-. injection Hr3 as <-.
    destruct (reads w q o r i x f G Hr NM P s Hs) as (t0 & p0 & tex & pex & _ & _ & _ & _ & _ & _ & _ & _ & E0 & E1).
    pose proof (hc w o r Hr) as Hc.
    destruct (p_interaction_inv _ _ _ Hs) as (j0 & m0 & e0 & t & o0 & n0 & bb0 & f1 & f2 & (I1 & I2 & I3 & I4) & K1 & K2 & I7 & I8 & I9 & K0).
    assert (Et : forall t, p_val C Tau = Ok t -> bget t i = Fin (p_tau x)) by (intros u Hu; exact (el_param w q o C fe G Hc i x P Tau u Hu)).
    assert (D : (p_tau x = 0 \/ cos (p_t0 x) = 1)%R \/ (p_tau x = 0 \/ cos (p_tex x) = 1)%R).
    { unfold inside in NI. destruct (Req_dec (p_tau x) 0); [tauto|]. destruct (Req_dec (cos (p_t0 x)) 1); [tauto|]. destruct (Req_dec (cos (p_tex x)) 1); [tauto|]. exfalso. apply NI. lra. }
    rewrite (k_interaction_el _ _ _ _ _ _ _ _ _ _ _ K0). unfold x_interaction. destruct D as [D|D].
    - rewrite (Fint_nan w q o r i f V SRF G Hr FI GI N1 N2 EV ES UV US NM FL true f1 (p_tau x) K1); [|cbn [look]; now rewrite E0|cbn [look]; now rewrite E0|exact Et].
      rewrite xmul_NaN_r. cbn [xadd]. now rewrite !xmul_NaN_r.
    - rewrite (Fint_nan w q o r i f V SRF G Hr FI GI N1 N2 EV ES UV US NM FL false f2 (p_tau x) K2);
        [|change (look f false "theta_0") with (f "theta_ex"); now rewrite E1|change (look f false "theta_0") with (f "theta_ex"); now rewrite E1|exact Et].
      now rewrite xmul_NaN_r, xadd_NaN_r, !xmul_NaN_r.
  Qed.
End Elem.
Lemma xmul_NaN_l a : xmul NaN a = NaN. Proof. destruct a; reflexivity. Qed.
Lemma x_convert_nan sg db i0 mu : x_convert sg db i0 mu NaN = NaN.
Proof. unfold x_convert. rewrite xmul_NaN_l. destruct db; reflexivity. Qed.

(** ** calc() and interaction() *)
Section Calls.
  Context (w : world) (o : nat) (kw : dict pyval) (iq sg db : bool) (V SRF : scat) (X : list nat -> point) (Fv : list nat -> string -> R).
  Let w' := fst (step w (OCalc o kw)).
  Context (a : nd xr).
  Hypothesis (T : tidy w (OCalc o kw)) (E : snd (step w (OCalc o kw)) = RetArr a) (Fl : obs_flags w' o true sg db).
  Hypothesis (S : forall j, valid_idx (shp (row a 0)) j -> inputs_at w' o j (X j) (Fv j) V SRF /\ admissible (X j) /\ (sg = true -> p_I0 (X j) <> 0%R)).
  Lemma calc_row3 i : valid_idx (shp (row a 0)) i ->
    (inside (X i) -> exists v, get (row a 3) i = in_units db v) /\
    (~ inside (X i) -> (forall j, valid_idx (shp (row a 0)) j -> (0 < p_tau (X j))%R -> inside (X j)) -> get (row a 3) i = in_units db 0) /\
    (~ inside (X i) -> (exists j, valid_idx (shp (row a 0)) j /\ (0 < p_tau (X j))%R /\ ~ inside (X j)) -> get (row a 3) i = NaN).
  Proof.
    intros Vi. destruct (tidy_inv _ _ T) as (_ & _ & FI & GI). fold w' in FI, GI.
    destruct (eval_after w (OCalc o kw) o kw a eq_refl (tidy_good _ _ T) E) as (C & fe & Hc & Hp). cbn beta iota in Hp. fold w' in Hc.
    destruct (conf_flags _ _ _ _ _ _ _ Hc Fl) as (Q & F2 & F3). pose proof Hc as (r & Hr & HC & Hfe).
    assert (G' : good w' (OCalc o nil)) by (apply good_next; [now apply tidy_good|]; intros J; apply adm_nil).
    destruct (p_calc_rows _ _ _ Hp) as (tau & b & isurf & i0 & mu0 & ivol & iint & Et & Esf & Ei & Em & Bi & Bm & Sv & Hv & Hi & Sa & Hget).
    assert (S' : forall j, valid_idx (shp isurf) j -> inputs_at w' o j (X j) (Fv j) V SRF /\ admissible (X j) /\ (sg = true -> p_I0 (X j) <> 0%R)).
    { intros j Hj. apply S. rewrite (row_shp _ _ _ 0 Sa). exact Hj. }
    rewrite !(row_shp _ _ _ 0 Sa) in *. clear S. destruct (Hget i Vi) as (_ & _ & G3 & _). specialize (G3 Q). destruct (Hi Q) as [Si X3]. clear Hget Hi.
    cbn [row get]. destruct (S' i Vi) as (In & Ad & Hi0). pose proof In as (P & _).
    rewrite F2, F3, (el_I0 w' o C fe Hc i (X i) P _ Ei), (el_mu0 w' _ o C fe G' Hc i (X i) P _ Em) in G3.
    assert (Tj : forall j, valid_idx (shp isurf) j -> bget tau j = Fin (p_tau (X j))).
    { intros j Hj. destruct (S' j Hj) as ((Pj & _) & _). exact (el_param w' _ o C fe G' Hc j (X j) Pj _ _ (p_val_eval _ _ _ _ Et)). }
    assert (Val : forall v, get iint i = Fin v -> get a (i ++ 3 :: nil) = in_units db (v * unit_factor sg (X i))).
    { intros v Hvv. rewrite G3, Hvv. now apply in_units_conv. }
    assert (NaN' : get iint i = NaN -> get a (i ++ 3 :: nil) = NaN).
    { intros Hvv. rewrite G3, Hvv. apply x_convert_nan. }
    assert (Scal : b = true -> forall j, valid_idx (shp isurf) j -> get tau nil = Fin (p_tau (X j))).
    { intros -> j Hj. specialize (Tj j Hj). assert (St : shp tau = nil) by (rewrite HC in Et; eapply p_eval_num; eassumption).
      unfold bget in Tj. rewrite St in Tj. replace (proj nil j) with (@nil nat) in Tj by (destruct j; reflexivity). exact Tj. }
    assert (El : forall s, p_interaction C fe = Ok s -> shp s = shp isurf -> forall j, valid_idx (shp isurf) j ->
              (inside (X j) -> exists v, get s j = Fin v) /\ (~ inside (X j) -> get s j = NaN)).
    { intros s Hs Ss j Hj. destruct (S' j Hj) as (Inj & Adj & _). rewrite HC, Hfe in Hs. rewrite <- (bget_valid s) by congruence. split.
      - eapply (elem_interior w' _ o r j (X j) (Fv j) V SRF G' Hr FI (GI o r Hr) Inj Adj s Hs).
      - eapply (elem_boundary w' _ o r j (X j) (Fv j) V SRF G' Hr FI (GI o r Hr) Inj Adj s Hs). }
    unfold off in X3. destruct b; cbn [andb] in X3.
    - specialize (Scal eq_refl). rewrite (Scal i Vi) in X3. cbn [xgt0] in X3. destruct (Rlt_dec 0 (p_tau (X i))) as [Tp|Tn]; cbn [negb] in X3.
      + destruct (El _ X3 Si i Vi) as [E1 E2]. split; [|split].
        * intros I1. destruct (E1 I1) as [v Ev]. eexists. exact (Val v Ev).
        * intros NI Cl. exfalso. apply NI. now apply Cl.
        * intros NI _. apply NaN'. now apply E2.
      + assert (Z : get a (i ++ 3 :: nil) = in_units db 0).
        { assert (Zi : get iint i = Fin 0%R) by (rewrite X3; reflexivity). rewrite (Val _ Zi). f_equal. ring. }
        split; [|split].
        * intros I1. eexists. exact Z.
        * intros _ _. exact Z.
        * intros _ (j & Hj & Tj' & _). exfalso. apply Tn. pose proof (Scal j Hj) as Sj. rewrite (Scal i Vi) in Sj. inversion Sj. congruence.
    - destruct X3 as (ii & Eii & Fn). destruct (k_fix_nan_spec _ _ _ Fn) as [Sf Hf]. assert (Sii : shp ii = shp isurf) by congruence.
      assert (Bt : ble (shp tau) (shp ii)).
      { destruct (p_interaction_inv _ _ _ Eii) as (? & ? & ? & t' & ? & ? & ? & ? & ? & (_ & _ & _ & Tt) & _ & _ & _ & _ & _ & K).
        apply k_interaction_ble in K. rewrite (p_val_eval _ _ _ _ Et) in Tt. inversion Tt; subst t'. apply K. }
      rewrite Sii in Hf. destruct (El _ Eii Sii i Vi) as [E1 E2]. split; [|split].
      + intros I1. destruct (E1 I1) as [v Ev]. eexists. apply (Val v). destruct (Hf i Vi) as [->|(N & _)]; [exact Ev|congruence].
      + intros NI Cl. specialize (E2 NI). assert (Zi : get iint i = Fin 0%R).
        { apply (k_fix_nan_fixed ii tau iint Fn Bt); [|congruence|exact E2]. intros j Hj. rewrite Sii in Hj. rewrite (Tj j Hj). destruct (El _ Eii Sii j Hj) as [D1 D2].
          destruct (S' j Hj) as (_ & (_ & _ & Tge) & _). unfold xis_zero. destruct (Req_EM_T (p_tau (X j)) 0) as [Z|Z].
          - rewrite D2; [reflexivity|]. unfold inside. lra.
          - assert (I1 : inside (X j)) by (apply Cl; [exact Hj|lra]). destruct (D1 I1) as [v ->]. reflexivity. }
        rewrite (Val _ Zi). f_equal. ring.
      + intros NI (j & Hj & Tp & NJ). apply NaN'. destruct (Hf i Vi) as [->|(_ & _ & M)]; [now apply E2|]. exfalso.
        rewrite Sii in Bt; specialize (M j Hj Bt). rewrite (Tj j Hj) in M. destruct (El _ Eii Sii j Hj) as [_ D2]. rewrite (D2 NJ) in M. cbn [xis_nan xis_zero] in M.
        destruct (Req_EM_T (p_tau (X j)) 0); [lra|discriminate].
  Qed.
End Calls.
Section Method.
  Context (w : world) (o : nat) (kw : dict pyval) (iq sg db : bool) (V SRF : scat) (x : point) (f : string -> R) (i : list nat).
  Let w' := fst (step w (OInteraction o kw)).
  Context (a : nd xr).
  Hypothesis (T : tidy w (OInteraction o kw)) (E : snd (step w (OInteraction o kw)) = RetArr a) (Fl : obs_flags w' o iq sg db).
  Hypothesis (Vi : valid_idx (shp a) i) (S : inputs_at w' o i x f V SRF) (Ad : admissible x) (Hi0 : sg = true -> p_I0 x <> 0%R).
  Lemma method_value : (inside x -> exists v, get a i = in_units db v) /\ (~ inside x -> get a i = NaN).
  Proof.
    destruct (tidy_inv _ _ T) as (_ & _ & FI & GI). fold w' in FI, GI.
    destruct (eval_after w (OInteraction o kw) o kw a eq_refl (tidy_good _ _ T) E) as (C & fe & Hc & Hp). cbn beta iota in Hp. fold w' in Hc.
    destruct (conf_flags _ _ _ _ _ _ _ Hc Fl) as (Q & F2 & F3). pose proof Hc as (r & Hr & HC & Hfe).
    assert (G' : good w' (OCalc o nil)) by (apply good_next; [now apply tidy_good|]; intros J; apply adm_nil).
    pose proof S as (P & _).
    destruct (p_interaction C fe) as [s|] eqn:Es; [|discriminate]. cbn [rbind] in Hp.
    destruct (p_interaction_inv _ _ _ Es) as (j0 & m0 & e0 & t & o0 & n0 & bb0 & f1 & f2 & (I1 & I2 & I3 & I4) & K1 & K2 & I7 & I8 & I9 & K0).
    apply k_interaction_ble in K0. destruct (p_convert_el _ _ _ Hp) as (Sh & _ & Ec).
    { intros i0 mu0 E1 E2. rewrite I1 in E1. rewrite I2 in E2. inversion E1; inversion E2; subst. split; apply K0. }
    rewrite (Ec i j0 m0 I1 I2) by congruence. rewrite F2, F3, (el_I0 w' o C fe Hc i x P _ I1), (el_mu0 w' _ o C fe G' Hc i x P _ I2).
    rewrite HC, Hfe in Es. split; intros Hi.
    - destruct (elem_interior w' _ o r i x f V SRF G' Hr FI (GI o r Hr) S Ad s Es Hi) as [v Ev]. rewrite bget_valid in Ev by congruence. rewrite Ev.
      eexists. now apply in_units_conv.
    - pose proof (elem_boundary w' _ o r i x f V SRF G' Hr FI (GI o r Hr) S Ad s Es Hi) as Ev. rewrite bget_valid in Ev by congruence. rewrite Ev. apply x_convert_nan.
  Qed.
End Method.
