(** Property theorems, part 12: jacobian() (C34-C38).
    Vocabulary: [measured sg db x] is surface + volume of the sample [x] in the unit selected by sig0 and dB
    (SpecJac.v); [is_derive g u d] (Coquelicot): the function g has the derivative d at u. *)
From Coquelicot Require Import Coquelicot.
From Coq Require Import Lia List.
From Verif Require Import SpecJac SpecScat.
From Verif Require Import JacSym.
Open Scope string_scope.
Open Scope nat_scope.
Open Scope list_scope.

(** the key of a parameter of the model, and the sample with that parameter set to [v] *)
Definition pkey (p : pname) : string := match p with Tau => "tau" | Omega => "omega" | NormBRDF => "NormBRDF" | Bsf => "bsf" end.
Definition set_par (p : pname) (x : point) (v : R) : point :=
  match p with Tau => set_tau x v | Omega => set_omega x v | NormBRDF => set_norm x v | Bsf => set_bsf x v end.
Definition jac_list (w : world) (o : nat) (keys : list string) (js : list (nd xr)) : Prop :=
  snd (step w (OJacobian o keys "list")) = RetJac (JList js).

Lemma jac_inv w o keys js C fe : good w (OJacobian o keys "list") -> at_conf w o C fe -> jac_list w o keys js ->
  exists norm, p_jac_norm C = Ok norm /\ p_jac_entries C norm keys = Ok js.
Proof.
  intros G (r & Hr & -> & _) H. unfold jac_list in H. destruct (good_eval _ _ G) as (_ & E & _). rewrite E in H.
  destruct (eval_jacobian _ o r keys "list" Hr) as [E' _]. rewrite E' in H. unfold p_jacobian in H.
  destruct (p_jac_norm _) as [norm|]; [|discriminate H]. cbn [rbind] in H. destruct (p_jac_entries _ _ _) as [l|] eqn:El; [|discriminate H].
  exists norm. split; [reflexivity|]. cbn in H. congruence.
Qed.
Lemma entries_nth C norm keys : forall js n key j, p_jac_entries C norm keys = Ok js -> nth_error keys n = Some key -> nth_error js n = Some j ->
  p_jac_entry C norm key = Ok j.
Proof.
  induction keys as [|k ks IH]; intros js n key j H Hk Hj; cbn [p_jac_entries] in H; [destruct n; discriminate|].
  destruct (p_jac_entry C norm k) as [j0|] eqn:E; [cbn [rbind] in H|discriminate H]. destruct (p_jac_entries C norm ks) as [l|] eqn:El; [cbn [rbind] in H|discriminate H].
  apply ok_inj in H. subst js. destruct n as [|n]; cbn [nth_error] in *; [congruence|]. eapply IH; eauto.
Qed.
(** the factor by which the program's linear sigma0 jacobian is off *)
Definition excess (sg db : bool) (x : point) : R := if sg && negb db then p_I0 x else 1.
(** the slope of the unit: d measured / d (surface + volume) *)
Definition unit_slope (sg db : bool) (x : point) : R := if db then (10 / (ln 10 * direct_value x))%R else unit_factor sg x.

Lemma excess_slope (C : config) sg db x : c_sig0 C = sg -> c_dB C = db -> (sg = true -> p_I0 x <> 0%R) ->
  code_factor C x = (excess sg db x * unit_slope sg db x)%R.
Proof.
  intros <- <- H. unfold code_factor, excess, unit_slope, unit_factor. destruct (c_sig0 C), (c_dB C); cbn [andb negb]; try ring. field. auto.
Qed.
Lemma par_derive p q x : is_derive (fun v => par q (set_par p x v)) (par p x) (match p, q with Tau, Tau | Omega, Omega | NormBRDF, NormBRDF | Bsf, Bsf => 1 | _, _ => 0 end)%R.
Proof. destruct p, q; cbn [par set_par]; first [exact (is_derive_id _) | exact (is_derive_const _ _)]. Qed.
Definition part (p : pname) (x : point) : R := match p with Tau => part_tau x | Omega => part_omega x | NormBRDF => part_norm x | Bsf => part_bsf x end.
Lemma set_par_same p x : set_par p x (par p x) = x.
Proof. destruct p, x; reflexivity. Qed.
Lemma measured_par sg db p x : (0 < cos (p_t0 x))%R -> (0 < cos (p_tex x))%R -> (sg = true -> p_I0 x <> 0%R) ->
  (db = true -> 0 < direct_value x * unit_factor sg x)%R ->
  is_derive (fun v => measured sg db (set_par p x v)) (par p x) (unit_slope sg db x * part p x)%R.
Proof.
  intros H0 H1 Hi Hd.
  pose proof (direct_derive (set_par p x) (par p x)) as D. rewrite (set_par_same p x) in D.
  assert (E0 : forall v, p_I0 (set_par p x v) = p_I0 x) by (intros v; destruct p; reflexivity).
  assert (E1 : forall v, p_t0 (set_par p x v) = p_t0 x) by (intros v; destruct p; reflexivity).
  assert (E2 : forall v, p_tex (set_par p x v) = p_tex x) by (intros v; destruct p; reflexivity).
  specialize (D _ _ _ _ 0%R 0%R E0 E1 E2 (par_derive p Tau x) (par_derive p Omega x) (par_derive p NormBRDF x) (par_derive p Bsf x)).
  assert (K : forall c : R, is_derive (fun _ : R => c) (par p x) 0%R) by (intros c; apply (is_derive_const c)).
  specialize (D ltac:(apply (is_derive_ext (fun _ => p_vol x)); [destruct p; reflexivity|apply K]) ltac:(apply (is_derive_ext (fun _ => p_brdf x)); [destruct p; reflexivity|apply K])).
  specialize (D ltac:(lra) ltac:(lra) ltac:(lra)).
  pose proof (measured_derive (set_par p x) (par p x)) as M. rewrite (set_par_same p x) in M.
  specialize (M E0 E1 ltac:(lra) ltac:(lra) ltac:(lra) sg db _ D Hi Hd).
  replace (unit_slope sg db x * part p x)%R with (if db then 10 / (ln 10 * direct_value x) * ((match p with Tau => 1 | _ => 0 end) * part_tau x + (match p with Omega => 1 | _ => 0 end) * part_omega x + (match p with NormBRDF => 1 | _ => 0 end) * part_norm x + (match p with Bsf => 1 | _ => 0 end) * part_bsf x + 0 * part_vol x + 0 * part_brdf x)
    else unit_factor sg x * ((match p with Tau => 1 | _ => 0 end) * part_tau x + (match p with Omega => 1 | _ => 0 end) * part_omega x + (match p with NormBRDF => 1 | _ => 0 end) * part_norm x + (match p with Bsf => 1 | _ => 0 end) * part_bsf x + 0 * part_vol x + 0 * part_brdf x))%R.
  - destruct p; exact M.
  - unfold unit_slope. destruct p, db; cbn [part]; ring.
Qed.
(** what the program's tau derivative has too much of: 1/mu_ex is replaced by mu_ex in the volume part *)
Definition tau_error (x : point) : R :=
  ((1 - p_bsfr x) * (p_I0 x * p_omega x * (cos (p_t0 x) / (cos (p_t0 x) + cos (p_tex x))) * ((cos (p_tex x) - 1 / cos (p_tex x)) * attenuation x) * p_vol x))%R.

Section Entry.
  Context (w : world) (o : nat) (keys : list string) (js : list (nd xr)) (iq sg db : bool) (i : list nat) (x : point).
  Hypothesis (G : good w (OJacobian o keys "list")) (J : jac_list w o keys js) (Fl : obs_flags w o iq sg db) (P : at_point w o i x).
  Hypothesis (H0 : (0 < cos (p_t0 x))%R) (H1 : (0 < cos (p_tex x))%R) (Hi : sg = true -> p_I0 x <> 0%R)
    (Hd : db = true -> (0 < direct_value x * unit_factor sg x)%R).
  Lemma direct_ne : db = true -> direct_value x <> 0%R.
  Proof. intros E Z. specialize (Hd E). rewrite Z in Hd. lra. Qed.
  Lemma entry_el n key j : nth_error keys n = Some key -> nth_error js n = Some j ->
    exists C fe s v, at_conf w o C fe /\ p_jac_sv C key = Ok (s, v) /\
      bget j i = xmul (xadd (bget s i) (bget v i)) (Fin (excess sg db x * unit_slope sg db x)%R).
  Proof.
    intros Hk Hj. destruct Fl as (r & Hr & F1 & F2 & F3). set (C := conf (w_heap w) r). set (fe := fnev_next (w_heap w) r).
    assert (Hc : at_conf w o C fe) by (exists r; auto). destruct (jac_inv _ _ _ _ _ _ G Hc J) as (norm & En & Ej).
    pose proof (entries_nth _ _ _ _ _ _ _ Ej Hk Hj) as Ee.
    assert (F2' : c_sig0 C = sg) by exact F2. assert (F3' : c_dB C = db) by exact F3.
    pose proof (el_norm w _ o C fe G Hc i x P H0 H1 norm ltac:(rewrite F3'; exact direct_ne) En) as Ne.
    rewrite (excess_slope C sg db x F2' F3' Hi) in Ne. destruct (el_entry C i norm j key _ Ne Ee) as (s & v & E & B). exists C, fe, s, v. auto.
  Qed.
  Lemma entry_par n p j : nth_error keys n = Some (pkey p) -> nth_error js n = Some j ->
    bget j i = Fin (excess sg db x * (unit_slope sg db x * (part p x + match p with Tau => tau_error x | _ => 0%R end)))%R.
  Proof.
    intros Hk Hj. destruct (entry_el n _ j Hk Hj) as (C & fe & s & v & Hc & E & ->).
    assert (X : code_part x (pkey p) = Some (part p x + match p with Tau => tau_error x | _ => 0%R end)%R).
    { destruct p; cbn [pkey]; unfold code_part; cbn; f_equal.
      - unfold surf_tau, code_vol_tau, part_tau, tau_error, bare1. field. repeat split; lra.
      - ring. - ring. - unfold surf_bsf, vol1, part_bsf, bare1. ring. }
    rewrite (el_fixed w _ o C fe G Hc i x P H0 H1 _ _ s v X E). cbn [xmul]. f_equal. ring.
  Qed.
End Entry.

(** *** C34.  Intended: the entry of a key omega, NormBRDF or bsf is the derivative of [measured] in that
    parameter.  In linear sigma0 units the program forgets the division by I0. *)
Definition C34_intended : Prop := forall w o keys js iq sg db i x n p j,
  p <> Tau -> good w (OJacobian o keys "list") -> jac_list w o keys js -> obs_flags w o iq sg db -> at_point w o i x ->
  (0 < cos (p_t0 x))%R -> (0 < cos (p_tex x))%R -> (sg = true -> p_I0 x <> 0%R) -> (db = true -> 0 < direct_value x * unit_factor sg x)%R ->
  nth_error keys n = Some (pkey p) -> nth_error js n = Some j ->
  exists d, is_derive (fun v => measured sg db (set_par p x v)) (par p x) d /\ bget j i = Fin d.
(** exactly what holds *)
Theorem C34_up_to_I0 : forall w o keys js iq sg db i x n p j,
  p <> Tau -> good w (OJacobian o keys "list") -> jac_list w o keys js -> obs_flags w o iq sg db -> at_point w o i x ->
  (0 < cos (p_t0 x))%R -> (0 < cos (p_tex x))%R -> (sg = true -> p_I0 x <> 0%R) -> (db = true -> 0 < direct_value x * unit_factor sg x)%R ->
  nth_error keys n = Some (pkey p) -> nth_error js n = Some j ->
  exists d, is_derive (fun v => measured sg db (set_par p x v)) (par p x) d /\
    bget j i = Fin ((if sg && negb db then p_I0 x else 1) * d)%R.
Proof.
  intros w o keys js iq sg db i x n p j Np G J Fl P H0 H1 Hi Hd Hk Hj. exists (unit_slope sg db x * part p x)%R. split.
  - now apply measured_par.
  - rewrite (entry_par w o keys js iq sg db i x G J Fl P H0 H1 Hi Hd n p j Hk Hj). unfold excess. f_equal. destruct p; try congruence; ring.
Qed.
Print Assumptions C34_up_to_I0.
Theorem C34_partial : forall w o keys js iq sg db i x n p j,
  p <> Tau -> good w (OJacobian o keys "list") -> jac_list w o keys js -> obs_flags w o iq sg db -> at_point w o i x ->
  (0 < cos (p_t0 x))%R -> (0 < cos (p_tex x))%R -> (sg = true -> p_I0 x <> 0%R) -> (db = true -> 0 < direct_value x * unit_factor sg x)%R ->
  nth_error keys n = Some (pkey p) -> nth_error js n = Some j ->
  (sg = true -> db = false -> p_I0 x = 1%R) ->
  exists d, is_derive (fun v => measured sg db (set_par p x v)) (par p x) d /\ bget j i = Fin d.
Proof.
  intros w o keys js iq sg db i x n p j Np G J Fl P H0 H1 Hi Hd Hk Hj U.
  destruct (C34_up_to_I0 w o keys js iq sg db i x n p j Np G J Fl P H0 H1 Hi Hd Hk Hj) as (d & D & E). exists d. split; [exact D|].
  rewrite E. f_equal. destruct sg, db; cbn [andb negb]; try ring. rewrite U by reflexivity. ring.
Qed.
Print Assumptions C34_partial.

(** *** C35.  The same for tau *)
Definition C35_intended : Prop := forall w o keys js iq sg db i x n j,
  good w (OJacobian o keys "list") -> jac_list w o keys js -> obs_flags w o iq sg db -> at_point w o i x ->
  (0 < cos (p_t0 x))%R -> (0 < cos (p_tex x))%R -> (sg = true -> p_I0 x <> 0%R) -> (db = true -> 0 < direct_value x * unit_factor sg x)%R ->
  nth_error keys n = Some "tau" -> nth_error js n = Some j ->
  exists d, is_derive (fun v => measured sg db (set_tau x v)) (p_tau x) d /\ bget j i = Fin d.
Theorem C35_exact : forall w o keys js iq sg db i x n j,
  good w (OJacobian o keys "list") -> jac_list w o keys js -> obs_flags w o iq sg db -> at_point w o i x ->
  (0 < cos (p_t0 x))%R -> (0 < cos (p_tex x))%R -> (sg = true -> p_I0 x <> 0%R) -> (db = true -> 0 < direct_value x * unit_factor sg x)%R ->
  nth_error keys n = Some "tau" -> nth_error js n = Some j ->
  exists d, is_derive (fun v => measured sg db (set_tau x v)) (p_tau x) d /\
    bget j i = Fin ((if sg && negb db then p_I0 x else 1) * (d + unit_slope sg db x * tau_error x))%R.
Proof.
  intros w o keys js iq sg db i x n j G J Fl P H0 H1 Hi Hd Hk Hj. exists (unit_slope sg db x * part Tau x)%R. split.
  - exact (measured_par sg db Tau x H0 H1 Hi Hd).
  - rewrite (entry_par w o keys js iq sg db i x G J Fl P H0 H1 Hi Hd n Tau j Hk Hj). unfold excess. f_equal. ring.
Qed.
Print Assumptions C35_exact.
(** correct for an exit angle of 0, or without volume scattering *)
(** the error of the tau entry vanishes exactly in these cases *)
Theorem C56_tau_error_zero : forall x, (0 < cos (p_t0 x))%R -> (0 < cos (p_tex x))%R -> p_I0 x <> 0%R ->
  (tau_error x = 0%R <-> cos (p_tex x) = 1%R \/ p_omega x = 0%R \/ p_bsfr x = 1%R \/ p_vol x = 0%R).
Proof.
  intros x H0 H1 Hi. split.
  - unfold tau_error. intros E. pose proof (exp_pos (- (p_tau x / cos (p_t0 x) + p_tau x / cos (p_tex x)))) as A.
    change (0 < attenuation x)%R in A.
    assert (Q : (0 < cos (p_t0 x) / (cos (p_t0 x) + cos (p_tex x)))%R) by (apply Rdiv_lt_0_compat; lra).
    apply Rmult_integral in E. destruct E as [E|E]; [right; right; left; lra|].
    apply Rmult_integral in E. destruct E as [E|E]; [|now auto].
    apply Rmult_integral in E. destruct E as [E|E].
    + apply Rmult_integral in E. destruct E as [E|E]; [|lra]. apply Rmult_integral in E. destruct E as [E|E]; [contradiction|now auto].
    + apply Rmult_integral in E. destruct E as [E|E]; [|lra]. left.
      assert (M : (cos (p_tex x) * cos (p_tex x) = 1)%R).
      { assert (E' : cos (p_tex x) = (1 / cos (p_tex x))%R) by lra. rewrite E' at 1. field. lra. }
      assert (F : ((cos (p_tex x) - 1) * (cos (p_tex x) + 1) = 0)%R) by lra. apply Rmult_integral in F. destruct F; lra.
  - intros Z. unfold tau_error. destruct Z as [-> |[-> |[-> | ->]]]; try ring. unfold Rdiv. rewrite Rinv_1. ring.
Qed.
Print Assumptions C56_tau_error_zero.
Theorem C35_partial : forall w o keys js iq sg db i x n j,
  good w (OJacobian o keys "list") -> jac_list w o keys js -> obs_flags w o iq sg db -> at_point w o i x ->
  (0 < cos (p_t0 x))%R -> (0 < cos (p_tex x))%R -> (sg = true -> p_I0 x <> 0%R) -> (db = true -> 0 < direct_value x * unit_factor sg x)%R ->
  nth_error keys n = Some "tau" -> nth_error js n = Some j ->
  (sg = true -> db = false -> p_I0 x = 1%R) ->
  cos (p_tex x) = 1%R \/ p_omega x = 0%R \/ p_bsfr x = 1%R \/ p_vol x = 0%R ->
  exists d, is_derive (fun v => measured sg db (set_tau x v)) (p_tau x) d /\ bget j i = Fin d.
Proof.
  intros w o keys js iq sg db i x n j G J Fl P H0 H1 Hi Hd Hk Hj U Z.
  destruct (C35_exact w o keys js iq sg db i x n j G J Fl P H0 H1 Hi Hd Hk Hj) as (d & D & E). exists d. split; [exact D|].
  assert (T : tau_error x = 0%R).
  { unfold tau_error. destruct Z as [-> |[-> |[-> | ->]]]; try ring. unfold Rdiv. rewrite Rinv_1. ring. }
  rewrite E, T. f_equal. destruct sg, db; cbn [andb negb]; try ring. rewrite U by reflexivity. ring.
Qed.
Print Assumptions C35_partial.

(** witnesses: the object of C47_nonvacuous (linear sigma0, I0 = 2, 1 rad, tau = 1) *)
Definition keysB : list string := "omega" :: "NormBRDF" :: "bsf" :: "tau" :: "t" :: nil.
Lemma wB_flags : obs_flags wB 0 false true false.
Proof. eexists. split; [vm_compute; reflexivity|auto]. Qed.
Lemma wB_jgood keys : good wB (OJacobian 0 keys "list").
Proof. apply good_next; [apply wA_good; intros; apply adm_nil|]. intros J. exact I. Qed.
Definition jac_out_of (x : out) : option (list (nd xr)) := match x with RetJac (JList l) => Some l | _ => None end.
Lemma jac_ex w o keys : match jac_out_of (snd (step w (OJacobian o keys "list"))) with Some l => length l =? length keys | None => false end = true ->
  exists js, jac_list w o keys js /\ length js = length keys.
Proof.
  unfold jac_list. destruct (snd _) as [| | |j| | |]; try discriminate. destruct j; try discriminate. cbn [jac_out_of]. intros E. apply Nat.eqb_eq in E. eauto.
Qed.
Lemma wB_jac : exists js, jac_list wB 0 keysB js /\ length js = length keysB.
Proof. apply jac_ex. vm_compute. reflexivity. Qed.
Lemma len_nth {A} (l : list A) n : n < length l -> exists a, nth_error l n = Some a.
Proof. intros H. destruct (nth_error l n) eqn:E; [eauto|]. apply nth_error_None in E. lia. Qed.
Lemma xB_brdf : (0 < p_brdf xB)%R.
Proof. cbn [xB p_brdf phase_value]. unfold b_isotropic. pose proof PI_RGT_0. apply Rdiv_lt_0_compat; lra. Qed.
Lemma xB_vol : (0 < p_vol xB)%R.
Proof.
  cbn [xB p_vol phase_value]. destruct wB_ok as [[Ot Oa] _]. pose proof (ok_den fB _ _ Ot Oa) as D. unfold p_hg, hg. pose proof (pow32_pos _ D). pose proof PI_RGT_0.
  apply Rmult_lt_0_compat; [|apply Rinv_0_lt_compat; lra]. apply Rdiv_lt_0_compat; [|assumption]. cbn [evalR]. unfold fB. simpl. lra.
Qed.
Theorem C34_refuted : ~ C34_intended.
Proof.
  intros C. destruct wB_jac as (js & J & L). destruct (len_nth js 1) as [j Hj]; [rewrite L; cbn; lia|].
  assert (Pre : (0 < cos (p_t0 xB))%R) by exact cos1_pos.
  destruct (C wB 0 keysB js false true false (1 :: nil) xB 1 NormBRDF j ltac:(discriminate) (wB_jgood _) J wB_flags wB_point Pre Pre
    ltac:(intros _; cbn; lra) ltac:(discriminate) eq_refl Hj) as (d & D & E).
  destruct (C34_up_to_I0 wB 0 keysB js false true false (1 :: nil) xB 1 NormBRDF j ltac:(discriminate) (wB_jgood _) J wB_flags wB_point Pre Pre
    ltac:(intros _; cbn; lra) ltac:(discriminate) eq_refl Hj) as (d' & D' & E').
  pose proof (measured_par true false NormBRDF xB Pre Pre ltac:(intros _; cbn; lra) ltac:(discriminate)) as D''.
  apply is_derive_unique in D, D', D''. rewrite E in E'. injection E' as E'. cbn [andb negb] in E'.
  assert (X : (0 < unit_slope true false xB * part NormBRDF xB)%R).
  { unfold unit_slope, unit_factor, part, part_norm. pose proof xB_brdf as B. pose proof PI_RGT_0. change (p_bsfr xB) with 0%R. change (p_I0 xB) with 2%R.
    change (p_t0 xB) with 1%R in *. pose proof cos1_pos. pose proof (exp_pos (- (p_tau xB / cos 1 + p_tau xB / cos (p_tex xB)))) as A.
    assert (PC : (0 < PI * cos 1)%R) by (apply Rmult_lt_0_compat; lra). assert (BC : (0 < cos 1 * p_brdf xB)%R) by (apply Rmult_lt_0_compat; lra).
    apply Rmult_lt_0_compat; [apply Rdiv_lt_0_compat; lra|].
    replace ((1 - 0) * (attenuation xB * (2 * cos 1 * p_brdf xB)) + 0 * (2 * cos 1 * p_brdf xB))%R with (attenuation xB * (2 * cos 1 * p_brdf xB))%R by ring.
    apply Rmult_lt_0_compat; [exact A|]. lra. }
  cbn [xB p_I0] in E'. lra.
Qed.
Print Assumptions C34_refuted.
Example C34_nonvacuous : exists js j, good wB (OJacobian 0 keysB "list") /\ jac_list wB 0 keysB js /\ obs_flags wB 0 false true false /\ at_point wB 0 (1 :: nil) xB /\
  (0 < cos (p_t0 xB))%R /\ (0 < cos (p_tex xB))%R /\ p_I0 xB <> 0%R /\ nth_error keysB 2 = Some (pkey Bsf) /\ nth_error js 2 = Some j.
Proof.
  destruct wB_jac as (js & J & L). destruct (len_nth js 2) as [j Hj]; [rewrite L; cbn; lia|]. exists js, j. pose proof cos1_pos.
  repeat (split; [first [exact wB_flags | exact wB_point | apply wB_jgood | assumption | cbn; lra | reflexivity]|]). exact Hj.
Qed.
(** the same object in intensity units *)
Definition wD : world := fst (step (wA false false false) (OCalc 0 nil)).
Lemma wD_flags : obs_flags wD 0 false false false.
Proof. eexists. split; [vm_compute; reflexivity|auto]. Qed.
Lemma wD_jgood keys : good wD (OJacobian 0 keys "list").
Proof. apply good_next; [apply wA_good; intros; apply adm_nil|]. intros J. exact I. Qed.
Lemma wD_jac : exists js, jac_list wD 0 keysB js /\ length js = length keysB.
Proof. apply jac_ex. vm_compute. reflexivity. Qed.
Ltac obs_num1 H := match type of H with
  | ?lhs = RetArr ?a => match goal with |- _ = ?v => let E := fresh in
      assert (E : match lhs with RetArr b => bget b (1 :: nil) | _ => NaN end = v) by (vm_compute; reflexivity);
      rewrite H in E; exact E end
  end.
Lemma wD_named : named wD 0 (1 :: nil) fB.
Proof.
  unfold named, obs_angle. repeat split.
  1-4: intros a H; obs_num1 H.
  intros d k a H Hk.
  assert (E : match snd (step wD (OParamDict 0)) with RetDict d => map (fun kv => (fst kv, bget (snd kv) (1 :: nil))) d | _ => nil end
    = ("bsf", Fin 0%R) :: ("tau", Fin 1%R) :: ("omega", Fin (1/3)) :: ("NormBRDF", Fin (1/4)) :: ("t", Fin (1/4)) :: nil) by (vm_compute; reflexivity).
  rewrite H in E. clear H.
  assert (M : dget (map (fun kv => (fst kv, bget (snd kv) (1 :: nil))) d) k = Some (bget a (1 :: nil))).
  { clear E. induction d as [|[k' v] d IH]; [discriminate|]. simpl in *. destruct (String.eqb k k'); [injection Hk as ->; reflexivity|auto]. }
  rewrite E in M. clear E Hk. cbn [dget] in M. unfold fB.
  destruct (String.eqb_spec k "bsf") as [->|]; [injection M as <-; reflexivity|].
  destruct (String.eqb_spec k "tau") as [->|]; [injection M as <-; reflexivity|].
  destruct (String.eqb_spec k "omega") as [->|]; [injection M as <-; reflexivity|].
  destruct (String.eqb_spec k "NormBRDF") as [->|]; [injection M as <-; reflexivity|].
  destruct (String.eqb_spec k "t") as [->|]; [injection M as <-; reflexivity|]. discriminate.
Qed.
Lemma wD_funs : obs_fun wD 0 WV (VHG (ESym "t") (Some 2) a_vol) /\ obs_fun wD 0 WSRF (SIso a_srf).
Proof. split; eexists; split; vm_compute; reflexivity. Qed.
Lemma wD_point : at_point wD 0 (1 :: nil) xB.
Proof.
  unfold at_point.
  split. { intros a (r & Hr & Ha).
    assert (E : match obj (w_heap wD) 0 with Ok r => match deref (w_heap wD) (r_I0 r) with Ok b => bget b (1 :: nil) | _ => NaN end | _ => NaN end = Fin 2%R)
      by (vm_compute; reflexivity). rewrite Hr, Ha in E. exact E. }
  unfold obs_angle, obs_param.
  do 6 (split; [intros a H; obs_num1 H|]).
  split; intros a H.
  - apply (C48_documented_phase_functions wD (OJacobian 0 nil "list") 0 WV _ a (1 :: nil) fB (wD_jgood nil) H); [apply wD_funs|apply wD_named|apply wB_ok].
  - apply (C48_documented_phase_functions wD (OJacobian 0 nil "list") 0 WSRF _ a (1 :: nil) fB (wD_jgood nil) H); [apply wD_funs|apply wD_named|apply wB_ok].
Qed.
Lemma cos1_lt : (cos 1 < 1)%R.
Proof. rewrite <- cos_0 at 2. apply cos_decreasing_1; pose proof PI2_1; pose proof PI_RGT_0; lra. Qed.
Theorem C35_refuted : ~ C35_intended.
Proof.
  intros C. destruct wD_jac as (js & J & L). destruct (len_nth js 3) as [j Hj]; [rewrite L; cbn; lia|].
  assert (Pre : (0 < cos (p_t0 xB))%R) by exact cos1_pos.
  destruct (C wD 0 keysB js false false false (1 :: nil) xB 3 j (wD_jgood _) J wD_flags wD_point Pre Pre
    ltac:(discriminate) ltac:(discriminate) eq_refl Hj) as (d & D & E).
  destruct (C35_exact wD 0 keysB js false false false (1 :: nil) xB 3 j (wD_jgood _) J wD_flags wD_point Pre Pre
    ltac:(discriminate) ltac:(discriminate) eq_refl Hj) as (d' & D' & E').
  apply is_derive_unique in D, D'. rewrite E in E'. injection E' as E'. cbn [andb negb] in E'.
  assert (X : (tau_error xB < 0)%R).
  { unfold tau_error. pose proof xB_vol as B. change (p_bsfr xB) with 0%R. change (p_I0 xB) with 2%R. change (p_omega xB) with (1/3)%R.
    change (p_t0 xB) with 1%R in *. change (p_tex xB) with 1%R in *. pose proof cos1_lt. pose proof (exp_pos (- (p_tau xB / cos 1 + p_tau xB / cos 1))) as A. change (0 < attenuation xB)%R in A.
    assert (I1 : (1 < 1 / cos 1)%R) by (apply (Rmult_lt_reg_r (cos 1)); [lra|]; unfold Rdiv; rewrite Rmult_assoc, Rinv_l by lra; lra).
    assert (K : (0 < 1 / 3 * ((1 / cos 1 - cos 1) * attenuation xB) * p_vol xB)%R).
    { apply Rmult_lt_0_compat; [|exact B]. apply Rmult_lt_0_compat; [lra|]. apply Rmult_lt_0_compat; [lra|exact A]. }
    replace ((1 - 0) * (2 * (1 / 3) * (cos 1 / (cos 1 + cos 1)) * ((cos 1 - 1 / cos 1) * attenuation xB) * p_vol xB))%R
      with (- (1 / 3 * ((1 / cos 1 - cos 1) * attenuation xB) * p_vol xB))%R by (field; lra). lra. }
  unfold unit_slope, unit_factor in E'. lra.
Qed.
Print Assumptions C35_refuted.
