(** The interaction contribution: C30 - C33, C20. *)
From Coquelicot Require Import Coquelicot.
From Coq Require Import Lia List.
From Verif Require Import SpecExp SpecInt.
From Verif Require Export Geometry4.
Open Scope string_scope.
Open Scope nat_scope.
Open Scope list_scope.

(** ** Hypotheses on a sample
    At position [i] the object's inputs are the numbers of [x] and [f] (angles and parameters by
    name); V and SRF are the object's scattering functions, their parameters have names different from
    the symbols the program uses itself, and their expansions are defined (ncoefs given); no input has
    more than one dimension (C21); the cosines are in (0,1) and tau > 0. *)
Definition sample (w : world) (o : nat) (i : list nat) (x : point) (f : string -> R) (V SRF : scat) : Prop :=
  at_point w o i x /\ named w o i f /\ obs_fun w o WV V /\ obs_fun w o WSRF SRF /\ usable f V /\ usable f SRF /\
  flat w o /\ own_fn w o /\
  (0 < cos (p_t0 x) < 1)%R /\ (0 < cos (p_tex x) < 1)%R /\ (0 < p_tau x)%R.

(** what the two evaluations return *)
Definition returns_interaction (w : world) (p : op) (o : nat) (i : list nat) (y : xr) : Prop :=
  exists a, snd (step w p) = RetArr a /\
    ((exists kw, p = OInteraction o kw) /\ valid_idx (shp a) i /\ y = get a i \/
     (exists kw, p = OCalc o kw) /\ valid_idx (shp (row a 0)) i /\ nrows a = 4 /\ y = get (row a 3) i).

Section Call.
  Context (w : world) (p : op) (o : nat) (i : list nat) (y : xr) (x : point) (f : string -> R) (V SRF : scat).
  Let w' := fst (step w p).
  Context (iq sg db : bool).
  Hypothesis (T : tidy w p) (Y : returns_interaction w p o i y) (Fl : obs_flags w' o iq sg db) (S : sample w' o i x f V SRF).
  Hypothesis (Hi0 : sg = true -> p_I0 x <> 0%R).
  Lemma call_value : exists q r s, good w' q /\ obj (w_heap w') o = Ok r /\ Finv (w_heap w') /\ geom_ok r /\
    r_fn_input r = None /\ r_fnevals_input r = None /\ scat_at (w_heap w') (r_V r) = Ok V /\ scat_at (w_heap w') (r_SRF r) = Ok SRF /\
    p_interaction (conf (w_heap w') r) (fnev_next (w_heap w') r) = Ok s /\
    forall v, bget s i = Fin v -> y = in_units db (v * unit_factor sg x).
  Proof.
    destruct S as (P & NM & (r1 & Hr1 & EV) & (r2 & Hr2 & ES) & UV & US & FL & (r3 & Hr3 & N1 & N2) & C0 & C1 & Tp).
    destruct (tidy_inv _ _ T) as (_ & _ & FI & GI). fold w' in FI, GI.
    rewrite Hr1 in Hr2. injection Hr2 as <-. rewrite Hr1 in Hr3. injection Hr3 as <-.
    destruct Y as (a & E & K).
    assert (Ev : exists kw, evaluation p = Some (o, kw)).
    { destruct K as [((kw & ->) & _)|((kw & ->) & _)]; exists kw; reflexivity. }
    destruct Ev as [kw Ev]. destruct (eval_after w p o kw a Ev (tidy_good _ _ T) E) as (C & fe & Hc & Hp). fold w' in Hc.
    destruct (conf_flags _ _ _ _ _ _ _ Hc Fl) as (F1 & F2 & F3). pose proof Hc as (r & Hr & HC & Hfe).
    rewrite Hr1 in Hr. injection Hr as <-.
    assert (G' : exists q, good w' q).
    { exists (OCalc o nil). apply good_next; [now apply tidy_good|]. intros J. apply adm_nil. }
    destruct G' as [q G']. exists q, r1.
    destruct K as [((kw' & ->) & Vi & ->)|((kw' & ->) & Vi & Nr & ->)]; cbn beta iota in Hp.
    - destruct (int_call w' q o C fe G' Hc i x P sg F2 Hi0 a Hp Vi) as (s & Es & _ & Hv). exists s.
      rewrite F3 in Hv. rewrite HC, Hfe in Es. repeat (split; [first [assumption|now apply (GI o)]|]). exact Hv.
    - assert (Q : c_intQ C = true).
      { destruct (p_calc_rows _ _ _ Hp) as (tau & b & isurf & i0 & mu0 & ivol & iint & _ & _ & _ & _ & _ & _ & _ & _ & _ & Sa & _).
        unfold nrows in Nr. rewrite Sa, last_last in Nr. unfold nrow in Nr. destruct (c_intQ C); [reflexivity|discriminate]. }
      destruct (row3 w' q o C fe G' Hc i x P sg F2 Hi0 a Hp Vi Q Tp) as (s & Es & _ & Hv). exists s.
      rewrite F3 in Hv. rewrite HC, Hfe in Es. repeat (split; [first [assumption|now apply (GI o)]|]). exact Hv.
  Qed.
End Call.

(** *** C30.  The interaction term is the exact integral of its definition.
    For monostatic geometry: as documented (SpecInt.v), with the truncated Legendre expansions of V
    and SRF.  C30 as stated also covers bistatic geometry, where the program differs: see
    [C30_refuted] and the exact value in [C30_bistatic_value]. *)
Theorem C30_monostatic_partial : forall w p o i y iq sg db x f V SRF,
  let w' := fst (step w p) in
  tidy w p -> returns_interaction w p o i y ->
  obs_flags w' o iq sg db -> obs_mode w' o true -> sample w' o i x f V SRF -> (sg = true -> p_I0 x <> 0%R) ->
  exists F1 F2, y = in_units db (interaction_value x F1 F2 * unit_factor sg x) /\
    is_Fint (expansion_value f V) (expansion_value f SRF) (p_tau x) (p_t0 x) (f "phi_0") (p_tex x) (f "phi_ex") F1 /\
    is_Fint (expansion_value f V) (expansion_value f SRF) (p_tau x) (p_tex x) (f "phi_ex") (p_t0 x) (f "phi_0") F2.
Proof.
  intros w p o i y iq sg db x f V SRF w' T Y Fl (rm & Hm & M) S Hi0.
  destruct (call_value w p o i y x f V SRF iq sg db T Y Fl S Hi0) as (q & r & s & G' & Hr & FI & GI & N1 & N2 & EV & ES & Es & Hv).
  destruct S as (P & NM & _ & _ & UV & US & FL & _ & C0 & C1 & Tp). fold w' in G', Hr, FI, EV, ES, Es.
  rewrite Hr in Hm. injection Hm as <-.
  destruct (inter_mono w' q o r i x f V SRF G' Hr FI GI N1 N2 EV ES UV US NM FL P C0 C1 Tp s Es M) as (F1 & F2 & E & I1 & I2).
  exists F1, F2. rewrite (Hv _ E). auto.
Qed.
Print Assumptions C30_monostatic_partial.

(** bistatic: in F(0 -> ex) the exit azimuth is phi_ex + pi; in F(ex -> 0) the incidence azimuth of the
    documented formula (the exit direction of the exchanged path) is phi_0 + pi, and angles fixed by
    set_bistatic keep their values instead of being exchanged *)
Definition if_fixed (w : world) (o : nat) (a : angle) (v own other : R) : Prop :=
  (obs_fixed w o a -> v = own) /\ (~ obs_fixed w o a -> v = other).
Theorem C30_bistatic_value : forall w p o i y iq sg db x f V SRF,
  let w' := fst (step w p) in
  tidy w p -> returns_interaction w p o i y ->
  obs_flags w' o iq sg db -> obs_mode w' o false -> sample w' o i x f V SRF -> (sg = true -> p_I0 x <> 0%R) ->
  exists F1 F2 (t_in p_in t_out p_out : R), y = in_units db (interaction_value x F1 F2 * unit_factor sg x) /\
    is_Fint (expansion_value f V) (expansion_value f SRF) (p_tau x) (p_t0 x) (f "phi_0") (p_tex x) (f "phi_ex" + PI) F1 /\
    is_F (cos (p_tex x)) (p_tau x) (fun th ph => expansion_value f V (PI - t_in) th p_in ph)
      (fun th ph => expansion_value f SRF th t_out ph (p_out + PI)) F2 /\
    if_fixed w' o T0 t_in (p_t0 x) (p_tex x) /\ if_fixed w' o P0 p_in (f "phi_0") (f "phi_ex") /\
    if_fixed w' o TEx t_out (p_tex x) (p_t0 x) /\ if_fixed w' o PEx p_out (f "phi_ex") (f "phi_0").
Proof.
  intros w p o i y iq sg db x f V SRF w' T Y Fl (rm & Hm & M) S Hi0.
  destruct (call_value w p o i y x f V SRF iq sg db T Y Fl S Hi0) as (q & r & s & G' & Hr & FI & GI & N1 & N2 & EV & ES & Es & Hv).
  destruct S as (P & NM & _ & _ & UV & US & FL & _ & C0 & C1 & Tp). fold w' in G', Hr, FI, EV, ES, Es.
  rewrite Hr in Hm. injection Hm as <-.
  destruct (reads w' q o r i x f G' Hr NM P s Es) as (t0 & p0 & tex & pex & _ & _ & _ & _ & _ & _ & _ & _ & E0 & E1).
  destruct (inter_bi w' q o r i x f V SRF G' Hr FI GI N1 N2 EV ES UV US NM FL P C0 C1 Tp s Es M) as (F1 & F2 & sl & E & Sl & I1 & I2).
  exists F1, F2, (sl T0), (sl P0), (sl TEx), (sl PEx). rewrite (Hv _ E). split; [reflexivity|]. split; [exact I1|]. split; [exact I2|].
  pose proof (Sl T0) as S0. pose proof (Sl P0) as S1. pose proof (Sl TEx) as S2. pose proof (Sl PEx) as S3.
  change (swapped f (ang_name T0)) with (f "theta_ex") in S0. change (swapped f (ang_name TEx)) with (f "theta_0") in S2.
  change (swapped f (ang_name P0)) with (f "phi_ex") in S1. change (swapped f (ang_name PEx)) with (f "phi_0") in S3.
  cbn [ang_name] in S0, S1, S2, S3. rewrite <- E0, <- E1.
  assert (Fx : forall a, is_fixed r a <-> obs_fixed w' o a).
  { intros a. split; [intros Ha; exists r; auto|]. intros (r' & Hr' & Ha). rewrite Hr in Hr'. now injection Hr' as <-. }
  unfold if_fixed. rewrite <- !Fx. intuition auto; contradiction.
Qed.
Print Assumptions C30_bistatic_value.
