(** Zero optical depth, normal incidence and arrays: C16, C19, C21 (elements). *)
From Coquelicot Require Import Coquelicot.
From Coq Require Import Lia List.
From Verif Require Import SpecScat SpecExp SpecInt.
From Verif Require Export TauZero Properties6.
Open Scope string_scope.
Open Scope nat_scope.
Open Scope list_scope.

(** *** C16.  tau = 0 switches the layer off, whatever the other positions of the arrays are.
    Surface and volume: [C16_tau_zero_direct].  Interaction: in a call whose positions [j] all have
    tau >= 0 and cosines in (0, 1), the interaction contribution is 0 where tau = 0 ... *)
Theorem C16_tau_zero_interaction : forall w o kw a sg db V SRF (X : list nat -> point) (Fv : list nat -> string -> R),
  let w' := fst (step w (OCalc o kw)) in
  tidy w (OCalc o kw) -> snd (step w (OCalc o kw)) = RetArr a -> obs_flags w' o true sg db ->
  (forall j, valid_idx (shp (row a 0)) j -> inputs_at w' o j (X j) (Fv j) V SRF /\ (sg = true -> p_I0 (X j) <> 0%R) /\
     (0 < cos (p_t0 (X j)) < 1)%R /\ (0 < cos (p_tex (X j)) < 1)%R /\ (0 <= p_tau (X j))%R) ->
  forall i, valid_idx (shp (row a 0)) i -> p_tau (X i) = 0%R -> get (row a 3) i = in_units db 0.
Proof.
  intros w o kw a sg db V SRF X Fv w' T E Fl S i Vi Z.
  assert (S' : forall j, valid_idx (shp (row a 0)) j -> inputs_at w' o j (X j) (Fv j) V SRF /\ admissible (X j) /\ (sg = true -> p_I0 (X j) <> 0%R)).
  { intros j Hj. destruct (S j Hj) as (A & B & C & D & F). split; [exact A|]. split; [|exact B]. unfold admissible; repeat split; lra. }
  destruct (calc_row3 w o kw sg db V SRF X Fv a T E Fl S' i Vi) as (_ & H & _). apply H.
  - intros (I1 & I2 & I3). lra.
  - intros j Hj Tp. destruct (S j Hj) as (_ & _ & C & D & F). unfold inside; repeat split; lra.
Qed.
Print Assumptions C16_tau_zero_interaction.
(** ... and where tau > 0 the results do not depend on the other positions: two calls - of different
    objects, with inputs of different shapes - agree at positions at which the inputs agree. *)
Definition same_fixed (w1 : world) (o1 : nat) (w2 : world) (o2 : nat) : Prop := forall b, obs_fixed w1 o1 b <-> obs_fixed w2 o2 b.
Theorem C16_neighbours : forall m w1 o1 kw1 i1 x1 f1 y1 y2 y3 w2 o2 kw2 i2 x2 f2 z1 z2 z3 sg db V SRF,
  calc_at w1 o1 kw1 i1 m sg db x1 f1 V SRF y1 y2 y3 ->
  calc_at w2 o2 kw2 i2 m sg db x2 f2 V SRF z1 z2 z3 ->
  same_fixed (fst (step w1 (OCalc o1 kw1))) o1 (fst (step w2 (OCalc o2 kw2))) o2 ->
  (forall s, In s ("theta_0" :: "theta_ex" :: "phi_0" :: "phi_ex" :: nil) -> f1 s = f2 s) ->
  same_params f1 f2 V SRF -> same_numbers x1 x2 ->
  y1 = z1 /\ y2 = z2 /\ y3 = z3.
Proof.
  intros m w1 o1 kw1 i1 x1 f1 y1 y2 y3 w2 o2 kw2 i2 x2 f2 z1 z2 z3 sg db V SRF H1 H2 Fx An SP SN. destruct m.
  { exact (C32_monostatic_partial _ _ _ _ _ _ _ _ _ _ _ _ _ _ _ _ _ _ _ _ _ _ H1 H2 An SP SN). }
  destruct (C31_direct_partial _ _ _ _ _ _ _ _ _ _ _ _ _ _ _ _ _ _ _ _ _ _ _ _ H1 H2 An SP SN) as [R1 R2]. split; [exact R1|]. split; [exact R2|].
  destruct (calc_at_basic _ _ _ _ _ _ _ _ _ _ _ _ _ _ H1) as [BV BS].
  assert (EV : forall a b c d, expansion_value f2 V a b c d = expansion_value f1 V a b c d).
  { intros. apply expansion_value_ext; [assumption|]. intros s Hs. symmetry. apply SP. auto. }
  assert (ES : forall a b c d, expansion_value f2 SRF a b c d = expansion_value f1 SRF a b c d).
  { intros. apply expansion_value_ext; [assumption|]. intros s Hs. symmetry. apply SP. auto. }
  pose proof (calc_at_returns _ _ _ _ _ _ _ _ _ _ _ _ _ _ H1) as Y1. pose proof (calc_at_returns _ _ _ _ _ _ _ _ _ _ _ _ _ _ H2) as Y2.
  destruct H1 as (a1 & T1 & E1 & Fl1 & M1 & Vi1 & S1 & OV1 & OS1 & I01 & _). destruct H2 as (a2 & T2 & E2 & Fl2 & M2 & Vi2 & S2 & OV2 & OS2 & I02 & _).
  destruct (C30_bistatic_value w1 (OCalc o1 kw1) o1 i1 y3 true sg db x1 f1 V SRF T1 Y1 Fl1 M1 S1 I01)
      as (F1 & F2 & t_in & p_in & t_out & p_out & D1 & J1 & J2 & A1 & A2 & A3 & A4).
  destruct (C30_bistatic_value w2 (OCalc o2 kw2) o2 i2 z3 true sg db x2 f2 V SRF T2 Y2 Fl2 M2 S2 I02)
      as (G1 & G2 & u_in & q_in & u_out & q_out & D2 & K1 & K2 & B1 & B2 & B3 & B4).
  destruct SN as (N1 & N2 & N3 & N4 & N5 & N6 & N7).
  assert (Ft : f1 "phi_0" = f2 "phi_0" /\ f1 "phi_ex" = f2 "phi_ex") by (split; apply An; simpl; auto). destruct Ft as [Fp Fq].
  assert (Dec : forall b v u own other own' other', if_fixed (fst (step w1 (OCalc o1 kw1))) o1 b v own other ->
            if_fixed (fst (step w2 (OCalc o2 kw2))) o2 b u own' other' -> own = own' -> other = other' -> v = u).
  { intros b v u own other own' other' [P1 P2] [Q1 Q2] <- <-. destruct M1 as (r & Hr & _).
    assert (D : obs_fixed (fst (step w1 (OCalc o1 kw1))) o1 b \/ ~ obs_fixed (fst (step w1 (OCalc o1 kw1))) o1 b).
    { destruct (existsb (angle_eqb b) (r_fixed r)) eqn:X; [left; exists r; auto|right]. intros (r' & Hr' & X'). rewrite Hr in Hr'. injection Hr' as <-. unfold is_fixed in X'. congruence. }
    destruct D as [D|D].
    - rewrite (P1 D). symmetry. apply Q1. now apply Fx.
    - rewrite (P2 D). symmetry. apply Q2. intros D'. apply D. now apply Fx. }
  rewrite <- (Dec _ _ _ _ _ _ _ A1 B1 N2 N3), <- (Dec _ _ _ _ _ _ _ A2 B2 Fp Fq), <- (Dec _ _ _ _ _ _ _ A3 B3 N3 N2), <- (Dec _ _ _ _ _ _ _ A4 B4 Fq Fp) in K2.
  rewrite <- N2, <- N3, <- N4, <- Fp, <- Fq in K1. rewrite <- N3, <- N4 in K2. unfold is_Fint in *.
  assert (Q1 : F1 = G1) by (eapply is_F_same; [| |exact J1|exact K1]; intros th ph; cbv beta; [now rewrite EV|now rewrite ES]).
  assert (Q2 : F2 = G2) by (eapply is_F_same; [| |exact J2|exact K2]; intros th ph; cbv beta; [now rewrite EV|now rewrite ES]).
  rewrite D1, D2, <- Q1, <- Q2. f_equal. unfold interaction_value, unit_factor. rewrite N1, N2, N3, N4, N5, N6, N7. reflexivity.
Qed.
Print Assumptions C16_neighbours.

(** row 0 is a number exactly if the three contributions are (linear units) *)
Lemma xmul_fin_inv s c v : xmul s (Fin c) = Fin v -> exists u, s = Fin u.
Proof. destruct s; cbn [xmul]; intros H; [eauto|..]; try discriminate; destruct (rsign c); discriminate. Qed.
Lemma total_row w o kw a sg i : good w (OCalc o kw) -> snd (step w (OCalc o kw)) = RetArr a ->
  obs_flags (fst (step w (OCalc o kw))) o true sg false -> valid_idx (shp (row a 0)) i ->
  forall x, at_point (fst (step w (OCalc o kw))) o i x -> (sg = true -> p_I0 x <> 0%R) ->
  (exists v, get (row a 1) i = Fin v) -> (exists v, get (row a 2) i = Fin v) ->
  ((exists v, get (row a 3) i = Fin v) -> exists v, get (row a 0) i = Fin v) /\ (get (row a 3) i = NaN -> get (row a 0) i = NaN).
Proof.
  intros G E Fl Vi x P Hi0. set (w' := fst (step w (OCalc o kw))) in *.
  destruct (eval_after w (OCalc o kw) o kw a eq_refl G E) as (C & fe & Hc & Hp). cbn beta iota in Hp. fold w' in Hc.
  destruct (conf_flags _ _ _ _ _ _ _ Hc Fl) as (Q & F2 & F3).
  assert (G' : good w' (OCalc o nil)) by (apply good_next; [assumption|]; intros J; apply adm_nil).
  destruct (p_calc_rows _ _ _ Hp) as (tau & b & isurf & i0 & mu0 & ivol & iint & Et & Esf & Ei & Em & Bi & Bm & Sv & Hv & Hi & Sa & Hget).
  rewrite (row_shp _ _ _ 0 Sa) in Vi. destruct (Hget i Vi) as (G1 & G2 & G3 & G0). specialize (G3 Q). cbn [row get]. rewrite G0, G1, G2, G3, Q, F2, F3.
  rewrite (el_I0 w' o C fe Hc i x P _ Ei), (el_mu0 w' _ o C fe G' Hc i x P _ Em).
  assert (K : exists c, forall v, x_convert sg false (Fin (p_I0 x)) (Fin (cos (p_t0 x))) v = xmul v (Fin c)).
  { unfold x_convert. destruct sg; [|eexists; reflexivity]. cbn [xmul]. rewrite xdiv_Fin by auto. eexists. reflexivity. }
  destruct K as [c K]. rewrite !K. intros [v1 H1] [v2 H2]. destruct (xmul_fin_inv _ _ _ H1) as [u1 ->]. destruct (xmul_fin_inv _ _ _ H2) as [u2 ->].
  cbn [xadd]. split.
  - intros [v3 H3]. destruct (xmul_fin_inv _ _ _ H3) as [u3 ->]. cbn [xadd xmul]. eauto.
  - destruct (get iint i); cbn [xadd xmul]; auto; discriminate.
Qed.

(** *** C19.  No NaN for admissible input: tau >= 0, cosines in (0, 1], linear units. *)
(** as stated: all contributions are numbers *)
Definition C19_intended : Prop := forall w o kw a sg V SRF (X : list nat -> point) (Fv : list nat -> string -> R),
  let w' := fst (step w (OCalc o kw)) in
  tidy w (OCalc o kw) -> snd (step w (OCalc o kw)) = RetArr a -> obs_flags w' o true sg false ->
  (forall j, valid_idx (shp (row a 0)) j -> inputs_at w' o j (X j) (Fv j) V SRF /\ admissible (X j) /\ (sg = true -> p_I0 (X j) <> 0%R)) ->
  forall i k, valid_idx (shp (row a 0)) i -> k < 4 -> exists v, get (row a k) i = Fin v.
(** exactly which values are not numbers: a position with tau > 0 at normal incidence or exit is NaN, and
    if there is one, the positions with tau = 0 are NaN as well; everything else is a number *)
Theorem C19_exact : forall w o kw a sg V SRF (X : list nat -> point) (Fv : list nat -> string -> R),
  let w' := fst (step w (OCalc o kw)) in
  tidy w (OCalc o kw) -> snd (step w (OCalc o kw)) = RetArr a -> obs_flags w' o true sg false ->
  (forall j, valid_idx (shp (row a 0)) j -> inputs_at w' o j (X j) (Fv j) V SRF /\ admissible (X j) /\ (sg = true -> p_I0 (X j) <> 0%R)) ->
  forall i, valid_idx (shp (row a 0)) i ->
    let normal := exists j, valid_idx (shp (row a 0)) j /\ (0 < p_tau (X j))%R /\ (cos (p_t0 (X j)) = 1 \/ cos (p_tex (X j)) = 1)%R in
    let bad := (p_tau (X i) = 0 \/ cos (p_t0 (X i)) = 1 \/ cos (p_tex (X i)) = 1)%R in
    (exists v, get (row a 1) i = Fin v) /\ (exists v, get (row a 2) i = Fin v) /\
    (bad /\ normal -> get (row a 3) i = NaN /\ get (row a 0) i = NaN) /\
    (~ (bad /\ normal) -> (exists v, get (row a 3) i = Fin v) /\ (exists v, get (row a 0) i = Fin v)).
Proof.
  intros w o kw a sg V SRF X Fv w' T E Fl S i Vi normal bad.
  destruct (S i Vi) as (In & Ad & I0). pose proof In as (P & _). pose proof Ad as ((A1 & A2) & (A3 & A4) & A5).
  destruct (C47_direct_contributions w o kw a true sg false i (X i) (tidy_good _ _ T) E Fl Vi P A1 A3 A5 I0) as [D1 D2].
  destruct (calc_row3 w o kw sg false V SRF X Fv a T E Fl S i Vi) as (R1 & R2 & R3).
  destruct (total_row w o kw a sg i (tidy_good _ _ T) E Fl Vi) with (x := X i) as [T1 T2]; [exact P|exact I0|eexists; exact D1|eexists; exact D2|].
  split; [eexists; exact D1|]. split; [eexists; exact D2|].
  assert (Ni : ~ inside (X i) <-> bad).
  { unfold inside, bad. split; [|intros B (I1 & I2 & I3); lra]. intros N. destruct (Req_dec (p_tau (X i)) 0); [tauto|]. destruct (Req_dec (cos (p_t0 (X i))) 1); [tauto|].
    destruct (Req_dec (cos (p_tex (X i))) 1); [tauto|]. exfalso. apply N. repeat split; lra. }
  assert (Nj : forall j, valid_idx (shp (row a 0)) j -> (0 < p_tau (X j))%R -> ~ inside (X j) -> (cos (p_t0 (X j)) = 1 \/ cos (p_tex (X j)) = 1)%R).
  { intros j Hj Tp N. destruct (S j Hj) as (_ & (B1 & B2 & _) & _). unfold inside in N. destruct (Req_dec (cos (p_t0 (X j))) 1); [tauto|].
    destruct (Req_dec (cos (p_tex (X j))) 1); [tauto|]. exfalso. apply N. repeat split; lra. }
  split.
  - intros [B (j & Hj & Tp & N)]. assert (Y : get (row a 3) i = NaN).
    { apply R3; [now apply Ni|]. exists j. split; [exact Hj|]. split; [exact Tp|]. intros (I1 & I2 & I3). lra. }
    split; [exact Y|now apply T2].
  - intros NB. assert (Y : exists v, get (row a 3) i = Fin v).
    { destruct (inside_dec (X i)) as [I1|N]; [apply (R1 I1)|]. exists 0%R. apply R2; [exact N|]. intros j Hj Tp.
      destruct (inside_dec (X j)) as [I2|N2]; [exact I2|]. exfalso. apply NB. split; [now apply Ni|]. exists j. auto. }
    split; [exact Y|now apply T1].
Qed.
Print Assumptions C19_exact.
(** in particular: finite for cosines below 1 and tau >= 0 *)
Theorem C19_finite_partial : forall w o kw a sg V SRF (X : list nat -> point) (Fv : list nat -> string -> R),
  let w' := fst (step w (OCalc o kw)) in
  tidy w (OCalc o kw) -> snd (step w (OCalc o kw)) = RetArr a -> obs_flags w' o true sg false ->
  (forall j, valid_idx (shp (row a 0)) j -> inputs_at w' o j (X j) (Fv j) V SRF /\ admissible (X j) /\ (sg = true -> p_I0 (X j) <> 0%R) /\
     (cos (p_t0 (X j)) < 1)%R /\ (cos (p_tex (X j)) < 1)%R) ->
  forall i k, valid_idx (shp (row a 0)) i -> k < 4 -> exists v, get (row a k) i = Fin v.
Proof.
  intros w o kw a sg V SRF X Fv w' T E Fl S i k Vi Hk.
  assert (S' : forall j, valid_idx (shp (row a 0)) j -> inputs_at w' o j (X j) (Fv j) V SRF /\ admissible (X j) /\ (sg = true -> p_I0 (X j) <> 0%R)).
  { intros j Hj. destruct (S j Hj) as (A & B & C & _). auto. }
  destruct (C19_exact w o kw a sg V SRF X Fv T E Fl S' i Vi) as (D1 & D2 & _ & D4).
  destruct D4 as [D3 D0]; [|destruct k as [|[|[|[|k]]]]; auto; lia].
  intros [_ (j & Hj & _ & N)]. destruct (S j Hj) as (_ & _ & _ & L1 & L2). lra.
Qed.
Print Assumptions C19_finite_partial.
(** interaction() does not replace the values at tau = 0: there, and at normal incidence or exit, it returns NaN *)
Theorem C19_interaction_method : forall w o kw a iq sg i x f V SRF,
  let w' := fst (step w (OInteraction o kw)) in
  tidy w (OInteraction o kw) -> snd (step w (OInteraction o kw)) = RetArr a -> obs_flags w' o iq sg false ->
  valid_idx (shp a) i -> inputs_at w' o i x f V SRF -> admissible x -> (sg = true -> p_I0 x <> 0%R) ->
  ((0 < p_tau x)%R /\ (cos (p_t0 x) < 1)%R /\ (cos (p_tex x) < 1)%R -> exists v, get a i = Fin v) /\
  ((p_tau x = 0 \/ cos (p_t0 x) = 1 \/ cos (p_tex x) = 1)%R -> get a i = NaN).
Proof.
  intros w o kw a iq sg i x f V SRF w' T E Fl Vi S Ad I0.
  destruct (method_value w o kw iq sg false V SRF x f i a T E Fl Vi S Ad I0) as [M1 M2]. split.
  - intros (A & B & C). apply M1. unfold inside. auto.
  - intros N. apply M2. intros (I1 & I2 & I3). lra.
Qed.
Print Assumptions C19_interaction_method.
