(** Hemispherical reflectance as computed by hemreflect: C67, C68, C69. *)
From Coquelicot Require Import Coquelicot.
From Coq Require Import Reals Lia Lra List.
From Verif Require Import ExpInt AzInt LegFacts LegSeries LegSeries2 Trunc.
From Verif Require Import SpecScat SpecExp SpecInt SpecFig Quad Quad2.
From Verif Require Import Progress CallEq Memo Interact2.
From Verif Require Export HemEl Hem.
Open Scope string_scope.
Open Scope list_scope.
Open Scope R_scope.

(** ** Vocabulary *)
(** the functions of C66 and CosineLobe, and combinations of them *)
Definition regular1 (f : string -> R) (s : scat) : Prop :=
  match s with SCos _ _ a => unit_a f a | _ => smooth1 f s end.
Definition regular (f : string -> R) (s : scat) : Prop :=
  match s with LinComb cs _ => Forall (fun c => regular1 f (snd c)) cs | _ => regular1 f s end.
(** the BRDF of [s] for the k-th incidence angle tmin + k * tstep (in degree) *)
Definition brdf_at (f : string -> R) (s : scat) (p0 tmin tstep : R) (k : nat) (th ph : R) : R :=
  distribution f s ((tmin + INR k * tstep) * (PI / 180)) th p0 ph.

(** ** Continuity *)
Lemma coslobe_cont i : cont_on (b_coslobe i).
Proof.
  assert (E : forall x, b_coslobe i x = ((x + Rabs x) / 2) ^ i * / PI).
  { intros x. unfold b_coslobe, Rdiv. f_equal. f_equal. destruct (Rlt_dec 0 x) as [H|H]; [rewrite Rabs_pos_eq by lra; field|rewrite Rabs_left1 by lra; field]. }
  intros x _. apply (continuity_pt_ext (fun x => ((x + Rabs x) / 2) ^ i * / PI)); [intros y; symmetry; apply E|].
  apply (continuity_pt_mult (fun x => ((x + Rabs x) / 2) ^ i) (fun _ => / PI)); [|apply continuity_pt_const; intros u v; reflexivity].
  apply (continuity_pt_comp (fun x => (x + Rabs x) / 2) (fun y => y ^ i)).
  - unfold Rdiv. apply (continuity_pt_mult (fun x => x + Rabs x) (fun _ => / 2)); [|apply continuity_pt_const; intros u v; reflexivity].
    apply (continuity_pt_plus (fun x => x) Rabs); [apply continuity_pt_id|apply Rcontinuity_abs].
  - apply derivable_continuous_pt. apply derivable_pt_pow.
Qed.
Lemma dist_uc f s t p : no_angles s -> regular f s -> uc (fun th ph => distribution f s t th p ph).
Proof.
  assert (M : forall s, no_angles s -> regular1 f s -> uc (fun th ph => distribution f s t th p ph)).
  { intros s0 N Sm. destruct s0 as [a|a|tt nc a|tt nc a|a|i nc a|tt nc a|tt nc a|cs a];
      try (destruct (member f _ Sm) as (P & C & U & E & _); specialize (E N); eapply uc_ext; [intros th ph; symmetry; apply E|]; now apply uc_of_angle).
    eapply uc_ext; [|apply (uc_of_angle (b_coslobe i) (ev_a f a) t p); [apply coslobe_cont|exact Sm]].
    intros th ph. cbv beta. unfold distribution, of_angle. rewrite ev_phase. cbn [phase_value]. rewrite dirs_ang; [reflexivity|exact N]. }
  intros N Sm. destruct s as [| | | | | | | |cs a]; try (now apply M).
  cbn [regular] in Sm. rewrite Forall_forall in Sm.
  eapply uc_ext; [intros th ph; symmetry; now apply dist_lin|]. apply (uc_sum (fun c => evalR f (fst c)) (fun c th ph => distribution f (snd c) t th p ph)).
  intros c Hc. apply M; [now apply (mem_no_angles cs a)|now apply Sm].
Qed.
(** common number of points for finitely many incidence angles *)
Lemma common_N (P : nat -> nat -> Prop) m : (forall k, exists N0, forall n, (N0 <= n)%nat -> P k n) ->
  exists N0, forall k n, (k < m)%nat -> (N0 <= n)%nat -> P k n.
Proof.
  intros H. induction m as [|m [N1 H1]]; [exists 0%nat; intros; lia|]. destruct (H m) as [N2 H2]. exists (Nat.max N1 N2).
  intros k n Hk Hn. destruct (Nat.eq_dec k m) as [->|]; [apply H2; lia|apply H1; lia].
Qed.

(** ** C68 *)
(** the returned array has one element per incidence angle tmin, tmin + tstep, ... below tmax, and each element is
    within [eps] of nrm times the hemispherical reflectance *)
Definition shows (r : res (nd xr)) (tmin tmax tstep eps nrm : R) (Rf : nat -> R) : Prop :=
  exists a m, r = Ok a /\ shp a = m :: nil /\ (forall k, (k < m)%nat <-> tmin + INR k * tstep < tmax) /\
    forall k, (k < m)%nat -> exists v, get a (k :: nil) = Fin v /\ Rabs (v - nrm * Rf k) <= eps.
(** the value of NormBRDF in [kw], 1 if it is not given (plot.py:326) *)
Definition norm_in (kw : dict (nd xr)) (nrm : R) : Prop :=
  match dget kw "NormBRDF" with Some a => get a nil = Fin nrm | None => nrm = 1 end.

Section Conv.
  Context (f : string -> R) (s : scat) (nrm p0 tmin tmax tstep : R).
  Hypothesis (Hstep : 0 < tstep) (NA : no_angles s) (Rg : regular f s) (Ok' : ok_scat f s).
  Let B (k : nat) : R -> R -> R := brdf_at f s p0 tmin tstep k.
  Definition Rf (k : nat) : R := RInt (outer (B k)) 0 (PI / 2).
  Lemma B_uc k : uc (B k).
  Proof. unfold B, brdf_at. now apply dist_uc. Qed.
  Lemma Rf_refl k : reflectance (B k) (Rf k).
  Proof. apply reflectance_exists, B_uc. Qed.
  Lemma conv eps : 0 < eps -> exists N0, forall old n w sid kw norm, (N0 <= n)%nat -> ready sid s w -> azimuth_axis w s -> numbers_for kw f s ->
    (shp norm = nil \/ shp norm = 1%nat :: nil) -> (forall i, bget norm i = Fin nrm) ->
    shows (snd (hem_run old sid norm p0 tmin tmax tstep n kw w)) tmin tmax tstep eps nrm Rf.
  Proof.
    intros He. set (e := eps / (Rabs nrm + 1)). pose proof (Rabs_pos nrm) as Pn. assert (Pe : 0 < e) by (apply Rdiv_lt_0_compat; lra).
    destruct (arange_spec tmin tmax tstep Hstep) as (inc & _ & Li & _).
    destruct (common_N (fun k n => forall old, (2 <= n)%nat /\ Rabs (double_simps (B k) old n - Rf k) <= e) (length inc)) as [N0 H0].
    { intros k. destruct (double_simps_conv (B k) (B_uc k) e Pe) as (N0 & H2 & H). exists N0. intros n Hn old. split; [lia|now apply H]. }
    exists (Nat.max 2 N0). intros old n w sid kw norm Hn Rw A K Sn Vn.
    destruct (hem_run_ok sid n s f kw p0 old K NA Ok' ltac:(lia) w norm nrm tmin tmax tstep Rw A Hstep Sn Vn) as (a & m & E & Sa & Lm & V).
    exists a, m. split; [exact E|]. split; [exact Sa|]. split; [exact Lm|]. intros k Hk. eexists. split; [now apply V|].
    assert (Hk' : (k < length inc)%nat) by now apply Li, Lm. destruct (H0 k n Hk' ltac:(lia) old) as [_ D].
    change (fun t ph => distribution f s (deg2rad (tmin + INR k * tstep)) t p0 ph) with (B k).
    replace (double_simps (B k) old n * nrm - nrm * Rf k) with (nrm * (double_simps (B k) old n - Rf k)) by ring.
    rewrite Rabs_mult. apply Rle_trans with (Rabs nrm * e); [now apply Rmult_le_compat_l|].
    apply Rle_trans with ((Rabs nrm + 1) * e); [apply Rmult_le_compat_r; lra|]. right. unfold e. field. lra.
  Qed.
End Conv.
Lemma azimuth_same w w' s : rest (w_heap w') = rest (w_heap w) -> azimuth_axis w s -> azimuth_axis w' s.
Proof. intros E A. destruct (rest_scat _ _ E) as (_ & Eb & _). unfold azimuth_axis in *. now rewrite Eb. Qed.

(** reading a parameter does not change what the next reading gives *)
Lemma read_again w q o r p x : good w q -> obj (w_heap w) o = Ok r -> obs_param w o p x -> obs_param (fst (step w (OReadParam o p))) o p x.
Proof.
  intros G Hr H. assert (Gr : good w (OReadParam o p)) by (apply (good_other w q); [exact G|intros J; exact I]).
  assert (Gn : good (fst (step w (OReadParam o p))) (OReadParam o p)) by (apply good_next; [exact Gr|intros J; exact I]).
  assert (HA : heap_after (w_heap w) (OReadParam o p) o r) by (unfold heap_after, evalh; cbn [step]; exact (proj2 (eval_same (w_heap w) o r (param_val o p) (p_val (conf (w_heap w) r) p) RetArr Hr (at_val _ _ _ _ p)))).
  destruct (obj_after _ _ _ _ _ Hr HA) as (r' & R1 & _ & R3 & _).
  destruct (good_eval _ _ Gr) as (_ & _ & E). rewrite <- E in R1, R3.
  apply (obs_param_conf _ _ _ _ Gn R1). rewrite R3. now apply (obs_param_conf _ _ _ _ Gr Hr).
Qed.
Lemma dget_entry {A} (d : dict A) k v : dget d k = Some v -> In (k, v) d.
Proof.
  induction d as [|[k' v'] d IH]; simpl; [discriminate|]. destruct (String.eqb k k') eqn:E; [|auto].
  intros [= ->]. apply String.eqb_eq in E. subst. now left.
Qed.
Lemma one_number norm nrm : shp norm = nil \/ shp norm = 1%nat :: nil -> bget norm nil = Fin nrm -> forall i, bget norm i = Fin nrm.
Proof. intros [S | S] H i; unfold bget in *; rewrite S in *; cbn [proj hd Nat.eqb] in *; exact H. Qed.

(** *** C68.  Where the BRDF array has an azimuth axis, hemreflect converges to the hemispherical reflectance. *)
Theorem C68_hemreflect_converges : forall f s nrm p0 tmin tmax tstep,
  0 < tstep -> no_angles s -> regular f s -> ok_scat f s ->
  exists Rf, (forall k, reflectance (brdf_at f s p0 tmin tstep k) (Rf k)) /\
  forall eps, 0 < eps -> exists N, forall old n w q kw, (N <= n)%nat -> good w q -> numbers_for kw f s ->
    (h_be (w_heap w) = Symengine \/ In "phi_ex" (syms (phase_function s))) ->
    (forall sid, scat_at (w_heap w) sid = Ok s -> norm_in kw nrm ->
      shows (snd (hemreflect_SRF old sid p0 tmin tmax tstep n kw w)) tmin tmax tstep eps nrm Rf) /\
    (forall o norm, obs_fun w o WSRF s -> obs_param w o NormBRDF norm -> (shp norm = nil \/ shp norm = 1%nat :: nil) -> bget norm nil = Fin nrm ->
      shows (snd (hemreflect_R old o p0 tmin tmax tstep n kw w)) tmin tmax tstep eps nrm Rf).
Proof.
  intros f s nrm p0 tmin tmax tstep Hst NA Rg O. exists (Rf f s p0 tmin tstep).
  split; [intros k; now apply Rf_refl|]. intros eps He.
  destruct (conv f s nrm p0 tmin tmax tstep Hst NA Rg O eps He) as [N HN]. exists N. intros old n w q kw Hn G K A. split.
  - intros sid Hs NI. apply HN; auto; [split; [now exists q|exact Hs]| |].
    + unfold norm_in in NI. destruct (dget kw "NormBRDF") as [a|] eqn:E; [|left; reflexivity].
      left. destruct K as (_ & _ & K). apply (K "NormBRDF" a). now apply dget_entry.
    + unfold norm_in in NI. destruct (dget kw "NormBRDF") as [a|] eqn:E; [|intros i; subst nrm; reflexivity].
      destruct K as (_ & _ & K). destruct (K "NormBRDF" a) as [Sa _]; [now apply dget_entry|]. intros i. unfold bget. rewrite Sa. exact NI.
  - intros o norm (r & Hr & Hs) Hp Sn Vn. pose proof (one_number _ _ Sn Vn) as Va.
    set (rd := OReadParam o NormBRDF).
    assert (Rw : ready (scat_id r WSRF) s w) by (split; [now exists q|exact Hs]).
    pose proof (ready_next _ _ w rd I Rw) as R1. pose proof (ready_next _ _ _ rd I R1) as R2.
    pose proof (read_again w q o r NormBRDF norm G Hr Hp) as H1. fold rd in H1.
    assert (Az : azimuth_axis (fst (step (fst (step w rd)) rd)) s).
    { apply (azimuth_same w); [|exact A]. rewrite (rest_step _ rd I). apply (rest_step _ rd I). }
    unfold hemreflect_R. fold rd. unfold bind at 1. unfold gets at 1. rewrite Hr. cbn [rbind].
    unfold bind at 1. unfold catch, call_op at 1. unfold obs_param in Hp, H1. fold rd in Hp, H1.
    destruct (step w rd) as [w1 o1] eqn:E1. cbn [fst snd] in *. subst o1.
    unfold bind at 1. unfold call_op. destruct (step w1 rd) as [w2 o2] eqn:E2. cbn [fst snd] in *. subst o2.
    apply HN; auto.
Qed.
Print Assumptions C68_hemreflect_converges.

(** ** C67: every surface function, both backends *)
Section NoAxis.
  Context (sid n : nat) (s : scat) (f : string -> R) (kw : dict (nd xr)) (p0 : R) (old : bool).
  Hypothesis (K : numbers_for kw f s) (NA : no_angles s) (O : ok_scat f s) (Hn : (2 <= n)%nat) (Nx : ~ In "phi_ex" (syms (phase_function s))).
  Let x := col_linspace n 0 (PI / 2).
  Let y := row_linspace n 0 (2 * PI).
  Lemma no_axis_shape w th b : h_be (w_heap w) = Sympy -> call1 (comp_of w s kw) (num th :: x :: num p0 :: y :: nil) kw = Ok b -> ble (shp b) (1%nat :: n :: nil).
  Proof.
    intros Eb H. unfold call1, call, comp_of in H. cbn [c_be c_vars c_exprs] in H. rewrite Eb in H.
    assert (N : NoDup (dkeys kw)) by (destruct K as (N & _); now apply nd_right in N).
    rewrite (bind_sympy_full angle_names) in H by (try reflexivity; exact N). cbn [rbind] in H.
    destruct (subset_b _ _); [|discriminate]. cbn [rmap] in H. unfold eval_sympy in H at 1.
    destruct (bc_shapes _) as [r|] eqn:Er; [|discriminate]. cbn [rbind] in H. injection H as <-. cbn [shp].
    eapply bc_shapes_least; [exact Er|]. apply Forall_forall. intros z Hz. apply in_map_iff in Hz. destruct Hz as (v & <- & Hv).
    unfold shape_of_sym, angle_names. cbn [app combine find fst].
    destruct (String.eqb v "theta_0"); [apply ble_nil|]. destruct (String.eqb v "theta_ex"); [apply ble_refl|].
    destruct (String.eqb v "phi_0"); [apply ble_nil|]. destruct (String.eqb_spec v "phi_ex") as [->|_]; [contradiction|].
    destruct (find _ _) as [[k a]|] eqn:Ef; [|apply ble_nil]. apply find_some in Ef. destruct Ef as [Ef _]. apply in_combine_r in Ef.
    pose proof (kw_ble kw f s (1%nat :: n :: nil) K) as F. rewrite Forall_forall in F. now apply F.
  Qed.
  Lemma no_axis_one w th : ready sid s w -> h_be (w_heap w) = Sympy -> snd (hem_one old sid p0 n kw th w) = Err ValueError.
  Proof.
    intros [[q G] Hs] Eb. set (p := OScatCalc sid (num th) (col_linspace n 0 (PI / 2)) (num p0) (row_linspace n 0 (2 * PI)) kw).
    destruct (brdf_call w n s f kw p0 K NA O Hn th) as (b & Ec & _). pose proof (no_axis_shape w th b Eb Ec) as Sb.
    pose proof (brdf_eval w q sid n s f kw p0 G Hs K th) as Ev. change (brdf_op sid n kw p0 th) with p in Ev. rewrite Ec in Ev. cbn [outA] in Ev.
    unfold hem_one. fold p. unfold bind, call_op. destruct (step w p) as [w' o] eqn:Es. cbn [snd] in Ev. subst o. unfold lift. cbn [snd].
    destruct (weight_ok n Hn) as (u & Eu & Su & _). rewrite Eu. cbn [rbind].
    unfold nmul. rewrite <- Su in Sb. unfold map2. unfold ble in Sb. rewrite bc_shape_comm, Sb, Su. cbn [rbind]. unfold simps_last at 1. cbn [shp].
    replace (n =? 0)%nat with false by (symmetry; apply Nat.eqb_neq; lia). replace (1 =? n)%nat with false by (symmetry; apply Nat.eqb_neq; lia). reflexivity.
  Qed.
  Lemma no_axis_run w norm tmin tmax tstep : ready sid s w -> h_be (w_heap w) = Sympy -> 0 < tstep -> tmin < tmax ->
    snd (hem_run old sid norm p0 tmin tmax tstep n kw w) = Err ValueError.
  Proof.
    intros Rw Eb Hs Ht. unfold hem_run. destruct (arange_spec tmin tmax tstep Hs) as (inc & Ei & Li & _).
    destruct inc as [|t inc]; [exfalso; assert (0 < 0)%nat by (apply (Li 0%nat); simpl INR; lra); lia|].
    unfold bind at 1, lift at 1. rewrite Ei. unfold bind at 1. cbn [map hem_all]. unfold bind at 1.
    pose proof (no_axis_one w (deg2rad t) Rw Eb) as E. destruct (hem_one old sid p0 n kw (deg2rad t) w) as [w' r]. cbn [snd] in E. subst r. reflexivity.
  Qed.
End NoAxis.
(** *** C67.  With the sympy backend a BRDF that does not depend on the exit azimuth has no azimuth axis, and
    hemreflect raises ValueError, whatever the number of points. *)
Theorem C67_no_azimuth_axis : forall f s p0 tmin tmax tstep old n w q kw,
  0 < tstep -> tmin < tmax -> no_angles s -> ok_scat f s -> (2 <= n)%nat -> good w q -> numbers_for kw f s ->
  h_be (w_heap w) = Sympy -> ~ In "phi_ex" (syms (phase_function s)) ->
  (forall sid, scat_at (w_heap w) sid = Ok s -> snd (hemreflect_SRF old sid p0 tmin tmax tstep n kw w) = Err ValueError) /\
  (forall o norm, obs_fun w o WSRF s -> obs_param w o NormBRDF norm -> snd (hemreflect_R old o p0 tmin tmax tstep n kw w) = Err ValueError).
Proof.
  intros f s p0 tmin tmax tstep old n w q kw Hst Ht NA O Hn G K Eb Nx. split.
  - intros sid Hs. unfold hemreflect_SRF. apply (no_axis_run sid n s f); auto. split; [now exists q|exact Hs].
  - intros o norm (r & Hr & Hs) Hp. set (rd := OReadParam o NormBRDF).
    assert (Rw : ready (scat_id r WSRF) s w) by (split; [now exists q|exact Hs]).
    pose proof (ready_next _ _ w rd I Rw) as R1. pose proof (ready_next _ _ _ rd I R1) as R2.
    pose proof (read_again w q o r NormBRDF norm G Hr Hp) as H1. fold rd in H1.
    assert (Az : h_be (w_heap (fst (step (fst (step w rd)) rd))) = Sympy).
    { destruct (rest_scat _ _ (rest_step (fst (step w rd)) rd I)) as (_ & -> & _). destruct (rest_scat _ _ (rest_step w rd I)) as (_ & -> & _). exact Eb. }
    unfold hemreflect_R. fold rd. unfold bind at 1. unfold gets at 1. rewrite Hr. cbn [rbind].
    unfold bind at 1. unfold catch, call_op at 1. unfold obs_param in Hp, H1. fold rd in Hp, H1.
    destruct (step w rd) as [w1 o1] eqn:E1. cbn [fst snd] in *. subst o1.
    unfold bind at 1. unfold call_op. destruct (step w1 rd) as [w2 o2] eqn:E2. cbn [fst snd] in *. subst o2.
    apply (no_axis_run _ n s f); auto.
Qed.
Print Assumptions C67_no_azimuth_axis.

Definition a_one : atrip := mk_a (ENum 1) (ENum 1) (ENum 1).
Definition wIso (seng : bool) : world := fst (run (init seng true) (ONewScat (SIso a_one) :: nil)).
Lemma wIso_good seng : good (wIso seng) OGetBackend.
Proof. exists seng, (ONewScat (SIso a_one) :: nil). split; [|reflexivity]. cbn. auto. Qed.
Lemma iso_facts : no_angles (SIso a_one) /\ regular (fun _ => 0) (SIso a_one) /\ ok_scat (fun _ => 0) (SIso a_one) /\ numbers_for nil (fun _ => 0) (SIso a_one).
Proof.
  split; [intros x []|]. split; [|split].
  - cbn. unfold unit_a, a_one. cbn [a0 a1 a2 evalR]. repeat split; unfold Q2R; simpl; rewrite Rabs_pos_eq; lra.
  - cbn. unfold ok_a, wd_a. auto 10.
  - split; [|split; [intros x []|intros k a []]]. cbn. repeat constructor; simpl; intuition discriminate.
Qed.
Theorem C67_refuted : ~ (forall f s nrm p0 tmin tmax tstep,
  0 < tstep -> no_angles s -> regular f s -> ok_scat f s ->
  exists Rf, (forall k, reflectance (brdf_at f s p0 tmin tstep k) (Rf k)) /\
  forall eps, 0 < eps -> exists N, forall old n w q kw, (N <= n)%nat -> good w q -> numbers_for kw f s ->
    forall sid, scat_at (w_heap w) sid = Ok s -> norm_in kw nrm ->
      shows (snd (hemreflect_SRF old sid p0 tmin tmax tstep n kw w)) tmin tmax tstep eps nrm Rf).
Proof.
  intros H. destruct iso_facts as (F1 & F2 & F3 & F4).
  destruct (H (fun _ => 0) (SIso a_one) 1 0 0 90 1 ltac:(lra) F1 F2 F3) as (Rf & _ & HE).
  destruct (HE 1 ltac:(lra)) as (N & HN).
  destruct (HN true (N + 2)%nat (wIso false) OGetBackend nil ltac:(lia) (wIso_good false) F4 0%nat eq_refl eq_refl) as (a & m & E & _).
  destruct (C67_no_azimuth_axis (fun _ => 0) (SIso a_one) 0 0 90 1 true (N + 2)%nat (wIso false) OGetBackend nil) as [E' _]; auto; try lra; try lia.
  - apply wIso_good.
  - rewrite (E' 0%nat eq_refl) in E. discriminate.
Qed.
Print Assumptions C67_refuted.

(** ** C69: energy conservation as shown by hemreflect *)
(** the functions documented to reflect all the energy: Isotropic at every incidence angle, HG_nadirnorm at nadir
    (incidence angle in degree) *)
Definition reflects_all (s : scat) (t : R) : Prop :=
  match s with
  | SIso _ => True
  | SHGn _ _ _ => t = 0
  | _ => False
  end.
Lemma const_reflectance : is_RInt (fun th => 1 / PI * (2 * PI) * cos th * sin th) 0 (PI / 2) 1.
Proof.
  pose proof PI_RGT_0 as HP.
  eapply is_val; [apply (is_RInt_derive (V := R_CompleteNormedModule) (fun x => (sin x) ^ 2) (fun th => 1 / PI * (2 * PI) * cos th * sin th))|].
  - intros x _. auto_derive; [exact I|]. field. lra.
  - intros x _. apply (ex_derive_continuous (V := R_NormedModule)). auto_derive. exact I.
  - change (sin (PI / 2) ^ 2 - sin 0 ^ 2 = 1). rewrite sin_PI2, sin_0. ring.
Qed.
Lemma reflects_all_value f s p0 tmin tstep k : no_angles s -> regular f s -> reflects_all s (tmin + INR k * tstep) -> reflectance (brdf_at f s p0 tmin tstep k) 1.
Proof.
  intros NA Rg H. pose proof PI_RGT_0 as HP. destruct s as [| | | |a| | |t nc a|]; try (now destruct H).
  - assert (E : forall th ph, brdf_at f (SIso a) p0 tmin tstep k th ph = 1 / PI).
    { intros th ph. unfold brdf_at, distribution. rewrite ev_phase. reflexivity. }
    split.
    + intros th. eapply ex_RInt_ext; [intros; symmetry; apply E|]. apply (ex_RInt_const (V := R_CompleteNormedModule)).
    + eapply is_ext; [|exact const_reflectance]. intros th. cbv beta. f_equal. f_equal.
      symmetry. eapply eq_trans; [apply (RInt_ext (V := R_CompleteNormedModule)); intros; apply E|].
      eapply eq_trans; [apply (RInt_const (V := R_CompleteNormedModule))|]. change (Rmult (2 * PI - 0) (1 / PI) = 1 / PI * (2 * PI)). ring.
  - assert (Ha : 0 < Rabs (evalR f (a0 a)) <= 1) by (destruct Rg as ((A & _) & _ & Z); split; [now apply Rabs_pos_lt|exact A]).
    assert (Ht : 0 < Rabs (evalR f t) < 1) by (destruct Rg as (_ & Z & _); exact Z).
    assert (E : forall th ph, brdf_at f (SHGn t nc a) p0 tmin tstep k th ph = b_hg_nadirnorm (evalR f t) (evalR f (a0 a)) (evalR f (a0 a) * cos th)).
    { intros th ph. unfold brdf_at, distribution. cbn [reflects_all] in H. rewrite H, Rmult_0_l, ev_phase. cbn [phase_value].
      assert (Qa : forall x, In x (a_syms a) -> ~ In x angle_syms) by (intros x Hx; apply NA; cbn [scat_syms]; apply in_or_app; auto).
      assert (Qt : forall x, In x (syms t) -> ~ In x angle_syms) by (intros x Hx; apply NA; cbn [scat_syms]; apply in_or_app; auto).
      assert (Q0 : forall x, In x (syms (a0 a)) -> ~ In x angle_syms) by (intros x Hx; apply Qa; unfold a_syms; apply in_or_app; auto).
      rewrite (dirs_ang _ _ _ _ _ _ Qa), (dirs_param _ _ _ _ _ _ Qt), (dirs_param _ _ _ _ _ _ Q0).
      f_equal. unfold cos_angle, ev_a. cbn [ga0 ga1 ga2]. rewrite sin_0, cos_0. ring. }
    split.
    + intros th. eapply ex_RInt_ext; [intros; symmetry; apply E|]. apply (ex_RInt_const (V := R_CompleteNormedModule)).
    + assert (X : is_RInt (fun th => scal (2 * PI) (b_hg_nadirnorm (evalR f t) (evalR f (a0 a)) (evalR f (a0 a) * cos th) * cos th * sin th)) 0 (PI / 2) (scal (2 * PI) (1 / (2 * PI))))
        by (apply (is_RInt_scal (V := R_NormedModule)); now apply nadir_normalised).
      eapply is_val; [eapply is_ext; [|exact X]|].
      * intros th. cbv beta. symmetry. eapply eq_trans; [apply (f_equal (fun z => z * cos th * sin th)); apply (RInt_ext (V := R_CompleteNormedModule)); intros; apply E|].
        eapply eq_trans; [apply (f_equal (fun z => z * cos th * sin th)); apply (RInt_const (V := R_CompleteNormedModule))|].
        match goal with |- ?l = scal _ ?b => change (Rmult (2 * PI - 0) (b_hg_nadirnorm (evalR f t) (evalR f (a0 a)) (evalR f (a0 a) * cos th)) * cos th * sin th = Rmult (2 * PI) b) end. ring.
      * change (Rmult (2 * PI) (1 / (2 * PI)) = 1). field. lra.
Qed.
(** *** C69.  For these functions the curve converges to NormBRDF. *)
Theorem C69_energy_conserving_curve : forall f s nrm p0 tmin tmax tstep,
  0 < tstep -> no_angles s -> regular f s -> ok_scat f s ->
  forall eps, 0 < eps -> exists N, forall old n w q kw, (N <= n)%nat -> good w q -> numbers_for kw f s ->
    (h_be (w_heap w) = Symengine \/ In "phi_ex" (syms (phase_function s))) ->
    forall sid, scat_at (w_heap w) sid = Ok s -> norm_in kw nrm ->
    exists a m, snd (hemreflect_SRF old sid p0 tmin tmax tstep n kw w) = Ok a /\ shp a = m :: nil /\
      (forall k, (k < m)%nat <-> tmin + INR k * tstep < tmax) /\
      forall k, (k < m)%nat -> reflects_all s (tmin + INR k * tstep) -> exists v, get a (k :: nil) = Fin v /\ Rabs (v - nrm) <= eps.
Proof.
  intros f s nrm p0 tmin tmax tstep Hst NA Rg O eps He.
  destruct (C68_hemreflect_converges f s nrm p0 tmin tmax tstep Hst NA Rg O) as (Rf & HR & HC). destruct (HC eps He) as (N & HN). exists N.
  intros old n w q kw Hn G K A sid Hs NI. destruct (proj1 (HN old n w q kw Hn G K A) sid Hs NI) as (a & m & E & Sa & Lm & V).
  exists a, m. split; [exact E|]. split; [exact Sa|]. split; [exact Lm|]. intros k Hk Hall. destruct (V k Hk) as (v & Ev & Dv). exists v. split; [exact Ev|].
  rewrite <- (reflectance_unique _ _ _ (reflects_all_value f s p0 tmin tstep k NA Rg Hall) (HR k)) in Dv. now rewrite Rmult_1_r in Dv.
Qed.
Print Assumptions C69_energy_conserving_curve.

(** ** The hypotheses are met *)
(** an object with a Henyey-Greenstein surface, with and without symengine *)
Definition sHG : scat := SHG (ESym "t") (Some 5%nat) (mk_a (ENum 1) (ENum 1) (ENum 1)).
Definition wHem (seng : bool) : world := fst (run (init seng true)
  (ONewScat (VIso a_one) :: ONewScat sHG :: ONew (Some 0%nat) (Some 1%nat) true false false None None (PNum (Fin 1)) ::
   OUpdate 0 (("NormBRDF", PNum (Fin 2)) :: ("t", PNum (Fin (1 / 2))) :: nil) :: nil)).
Definition fHem (x : string) : R := 1 / 2.
Definition kwHem : dict (nd xr) := ("t", num (1 / 2)) :: nil.
Lemma hem_facts : no_angles sHG /\ regular fHem sHG /\ ok_scat fHem sHG /\ numbers_for kwHem fHem sHG /\ In "phi_ex" (syms (phase_function sHG)).
Proof.
  assert (U : Rabs (Q2R 1) <= 1) by (unfold Q2R; simpl; rewrite Rabs_pos_eq; lra).
  split; [|split; [|split; [|split]]].
  - intros x [<-|[]] X. repeat (destruct X as [X|X]; [discriminate X|]); exact X.
  - split; [now repeat split|]. change (Rabs (1 / 2) < 1). rewrite Rabs_pos_eq; lra.
  - assert (T : Rabs (1 / 2) < 1) by (rewrite Rabs_pos_eq; lra).
    split; [split; [exact I|exact T]|]. split; [now repeat split|]. split; [exact U|split; exact U].
  - split; [|split].
    + cbn. repeat constructor; simpl; intuition discriminate.
    + intros x [<-|[]]. now left.
    + intros k a [E|[]]. injection E as <- <-. split; reflexivity.
  - vm_compute. tauto.
Qed.
Example C68_nonvacuous : forall seng, good (wHem seng) OGetBackend /\
  no_angles sHG /\ regular fHem sHG /\ ok_scat fHem sHG /\ numbers_for kwHem fHem sHG /\ In "phi_ex" (syms (phase_function sHG)) /\
  scat_at (w_heap (wHem seng)) 1 = Ok sHG /\ norm_in kwHem 1 /\ obs_fun (wHem seng) 0 WSRF sHG /\
  exists norm, obs_param (wHem seng) 0 NormBRDF norm /\ shp norm = 1%nat :: nil /\ bget norm nil = Fin 2.
Proof.
  intros seng. split.
  { exists seng. eexists. split; [|reflexivity]. cbn. tauto. }
  destruct hem_facts as (F1 & F2 & F3 & F4 & F5). do 5 (split; [assumption|]). split; [destruct seng; vm_compute; reflexivity|]. split; [reflexivity|].
  split.
  { eexists. split; [destruct seng; vm_compute; reflexivity|]. destruct seng; vm_compute; reflexivity. }
  exists (mk_nd (1%nat :: nil) (fun _ => Fin 2)). split; [|split; reflexivity]. destruct seng; vm_compute; reflexivity.
Qed.
(** C67, C69: an isotropic surface; without symengine there is no azimuth axis, with symengine there is *)
Example C67_nonvacuous : let s := SIso a_one in let f := fun _ : string => 0 in
  no_angles s /\ regular f s /\ ok_scat f s /\ numbers_for nil f s /\ ~ In "phi_ex" (syms (phase_function s)) /\
  good (wIso false) OGetBackend /\ h_be (w_heap (wIso false)) = Sympy /\ scat_at (w_heap (wIso false)) 0 = Ok s.
Proof.
  destruct iso_facts as (F1 & F2 & F3 & F4). cbn zeta. do 4 (split; [assumption|]). split; [vm_compute; tauto|]. split; [apply wIso_good|]. split; reflexivity.
Qed.
Example C69_nonvacuous : let s := SIso a_one in let f := fun _ : string => 0 in
  no_angles s /\ regular f s /\ ok_scat f s /\ numbers_for nil f s /\ (forall t, reflects_all s t) /\
  good (wIso true) OGetBackend /\ h_be (w_heap (wIso true)) = Symengine /\ scat_at (w_heap (wIso true)) 0 = Ok s /\ norm_in nil 1.
Proof.
  destruct iso_facts as (F1 & F2 & F3 & F4). cbn zeta. do 4 (split; [assumption|]). split; [intros; exact I|]. split; [apply wIso_good|]. repeat split; reflexivity.
Qed.
