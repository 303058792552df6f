(** jacobian entries of symbols: _d_surface_ddummy + _d_volume_ddummy at one element. *)
From Coquelicot Require Import Coquelicot.
From Coq Require Import Lia List.
From Verif Require Import SpecJac SpecScat.
From Verif Require Export PhaseVal JacEl Properties3.
Open Scope string_scope.
Open Scope nat_scope.
Open Scope list_scope.

(** ** The phase functions are differentiable where their arguments are and the documented formulas make sense *)
Section SmoothPhase.
  Context (f : string -> R).
  Notation ev := (evalR f).
  Definition smooth_a (a : atrip) : Prop := smooth f (a0 a) /\ smooth f (a1 a) /\ smooth f (a2 a).
  Fixpoint smooth_args (s : scat) : Prop :=
    match s with
    | VIso _ | SIso _ => True
    | VRay a | SCos _ _ a => smooth_a a
    | VHG t _ a | VHGRay t _ a | SHG t _ a | SHGn t _ a => smooth f t /\ smooth_a a
    | LinComb choices _ => fold_right (fun c acc => smooth f (fst c) /\ smooth_args (snd c) /\ acc) True choices
    end.
  Ltac sdt := repeat match goal with
    | |- smooth _ (eadd _ _) => apply smooth_eadd | |- smooth _ (emul _ _) => apply smooth_emul | |- smooth _ (esub _ _) => apply smooth_esub
    | |- smooth _ (epow _ _) => apply smooth_epow | |- smooth _ (ediv _ _) => apply smooth_ediv
    | |- smooth _ (ENum _) => exact I | |- smooth _ EPi => exact I
    | |- smooth _ (EDiv _ _) => split; [|split] | |- smooth _ (EMul _ _) => split | |- smooth _ (EP32 _) => split | |- smooth _ (ESqrt _) => split
    | |- smooth _ four_pi => split; exact I | |- _ => assumption end.
  Ltac evs := unfold four_pi; repeat first [progress (rewrite ?ev_ediv, ?ev_emul, ?ev_esub, ?ev_eadd, ?ev_epow, ?ev_sang, ?ev_hg_den) | progress cbn [evalR scat_a]]; rewrite ?Q2R_1', ?Q2R_lit.
  Lemma smooth_sang s : smooth_a (scat_a s) -> smooth f (scattering_angle_symbolic s).
  Proof. intros (A & B & C). unfold scattering_angle_symbolic. apply smooth_angle; simpl; auto. Qed.
  Lemma smooth_hg_den t x : smooth f t -> smooth f x -> smooth f (hg_den t x).
  Proof. intros. unfold hg_den. sdt. Qed.
  Lemma smooth_nadir t a : smooth f t -> smooth_a a -> ok_t f t -> ok_a f a -> ev t <> 0%R -> ev (a0 a) <> 0%R -> smooth f (nadir_hemreflect t a).
  Proof.
    intros St (Sa & _ & _) [Wt Ht] (Wa & Ha & _) Nt Na. destruct Wa as (Wa & _ & _). unfold nadir_hemreflect.
    pose proof (hg_den_pos _ _ Ht Ha) as D. replace (2 * ev t * ev (a0 a))%R with (2 * ev (a0 a) * ev t)%R in D by ring.
    pose proof (sqrt_lt_R0 _ D) as Ds. assert (P : (0 < 1 + ev t ^ 2)%R) by (pose proof (pow2_ge_0 (ev t)); lra).
    sdt; evs; replace (2 / 1)%R with 2%R by field.
    - now apply Rmult_lt_0_compat.
    - lra.
    - repeat apply Rmult_integral_contrapositive_currified; try lra; auto using pow_nonzero.
  Qed.
  Lemma smooth_coslobe e i : smooth f e -> smooth f (emul (EDiv (ENum 1) EPi) (epow (ediv (emul e (eadd (ENum 1) (ESign e))) (ENum 2)) i)).
  Proof.
    intros W. apply smooth_emul; [split; [exact I|split; [exact I|cbn [evalR]; pose proof PI_RGT_0; lra]]|]. apply smooth_epow. apply smooth_ediv.
    - apply smooth_emul; [exact W|]. apply smooth_eadd; [exact I|exact W].
    - exact I.
    - cbn [evalR]. rewrite Q2R_lit. lra.
  Qed.
  Lemma smooth_phase s : ok_scat f s -> smooth_args s -> smooth f (phase_function s).
  Proof.
    pose proof PI_RGT_0 as HPI.
    induction s using scat_ind'; cbn [phase_function ok_scat smooth_args]; intros O A.
    - sdt. evs. lra.
    - sdt; [evs; lra|]. now apply smooth_sang.
    - destruct O as [Ot Oa]. pose proof (ok_den _ _ _ Ot Oa) as D. destruct A as [At Aa]. pose proof (smooth_sang (VHG t n a) Aa).
      sdt; [now apply smooth_hg_den|evs; lra|]. evs. fold (pow32 (1 + ev t ^ 2 - 2 * ev t * ang_of f a)). pose proof (pow32_pos _ D).
      apply Rmult_integral_contrapositive_currified; lra.
    - destruct O as [Ot Oa]. pose proof (ok_den _ _ _ Ot Oa) as D. destruct A as [At Aa]. pose proof (smooth_sang (VHGRay t n a) Aa).
      sdt; try (evs; lra); try (now apply smooth_hg_den).
      + evs. pose proof (pow2_ge_0 (ev t)). lra.
      + evs. fold (pow32 (1 + ev t ^ 2 - 2 * ev t * ang_of f a)). pose proof (pow32_pos _ D). lra.
    - sdt. evs. lra.
    - apply smooth_coslobe. exact (smooth_sang (SCos i n a) A).
    - destruct O as [Ot Oa]. pose proof (ok_den _ _ _ Ot Oa) as D. destruct A as [At Aa]. pose proof (smooth_sang (SHG t n a) Aa).
      sdt; [now apply smooth_hg_den|evs; lra|]. evs. fold (pow32 (1 + ev t ^ 2 - 2 * ev t * ang_of f a)). pose proof (pow32_pos _ D).
      apply Rmult_integral_contrapositive_currified; lra.
    - destruct O as (Ot & Oa & Nt & Na). pose proof (ok_den _ _ _ Ot Oa) as D. destruct A as [At Aa]. pose proof (smooth_sang (SHGn t n a) Aa).
      pose proof (smooth_nadir t a At Aa Ot Oa Nt Na).
      sdt; [rewrite ev_nadir; apply hg_nadir_ne; try assumption; [apply Ot|apply Oa]|now apply smooth_hg_den|evs; lra|].
      evs. fold (pow32 (1 + ev t ^ 2 - 2 * ev t * ang_of f a)). pose proof (pow32_pos _ D).
      apply Rmult_integral_contrapositive_currified; lra.
    - assert (G : forall l acc, Forall (fun c => ok_scat f (snd c) -> smooth_args (snd c) -> smooth f (phase_function (snd c))) l ->
        fold_right (fun c acc => wd f (fst c) /\ ok_scat f (snd c) /\ acc) True l ->
        fold_right (fun c acc => smooth f (fst c) /\ smooth_args (snd c) /\ acc) True l -> smooth f acc ->
        smooth f (fold_left (fun acc cw => eadd acc (emul (fst cw) (phase_function (snd cw)))) l acc)).
      { clear. induction l as [|c l IH]; intros acc F O A W; simpl in *; [assumption|]. inversion F; subst. destruct O as (O1 & O2 & O3). destruct A as (A1 & A2 & A3).
        apply IH; auto. sdt. auto. }
      apply G; auto. exact I.
  Qed.
End SmoothPhase.

Definition par (p : pname) (x : point) : R :=
  match p with Tau => p_tau x | Omega => p_omega x | NormBRDF => p_norm x | Bsf => p_bsfr x end.
(** R.<p> was assigned the string [e] *)
Definition def_str (w : world) (o : nat) (p : pname) (e : expr) : Prop := exists r, obj (w_heap w) o = Ok r /\ r_def r p = DStr e.
Definition mentions (w : world) (o : nat) (p : pname) (k : string) : Prop := exists e, def_str w o p e /\ In k (syms e).
(** [X v] is the sample in which the symbol [k] has the value [v] and everything else is as [f] says *)
Definition symbol_family (w : world) (o : nat) (k : string) (f : string -> R) (sV sS : scat) (X : R -> point) : Prop :=
  (forall v, p_I0 (X v) = p_I0 (X (f k)) /\ p_t0 (X v) = p_t0 (X (f k)) /\ p_tex (X v) = p_tex (X (f k))) /\
  (forall p e, def_str w o p e -> forall v, par p (X v) = evalR (upd f k v) e) /\
  (forall p, (forall e, ~ def_str w o p e) -> forall v, par p (X v) = par p (X (f k))) /\
  (forall v, p_vol (X v) = phase_value (upd f k v) sV) /\ (forall v, p_brdf (X v) = phase_value (upd f k v) sS).

Lemma ldiff_inv C d k : p_ldiff C d = Ok k -> exists e, d = Some e /\ lambdify (c_backend C) (c_seng C) (angle_names ++ dkeys (c_params C)) (e :: nil) = Ok k.
Proof. unfold p_ldiff. destruct d as [e|]; [|discriminate]. eauto. Qed.
Lemma dkeys_params C d : p_params C = Ok d -> dkeys d = dkeys (c_params C).
Proof.
  unfold p_params. revert d. induction (c_params C) as [|[k v] l IH]; intros d H; cbn [rmap] in H.
  - apply ok_inj in H. now subst d.
  - cbn [fst snd] in H. destruct v; [|discriminate H]. cbn [rbind] in H. destruct (rmap _ l) as [y|]; [|discriminate H]. cbn [rbind] in H.
    apply ok_inj in H. subst d. cbn [dkeys map fst]. f_equal. apply IH. reflexivity.
Qed.
Section Sym.
  Context (w : world) (q : op) (o : nat) (C : config) (fe : res (option compiled)).
  Hypothesis (G : good w q) (Hc : at_conf w o C fe).
  Context (i : list nat) (f : string -> R).
  Hypothesis (N : named w o i f).
  Lemma el_full d k a : p_ldiff C (Some d) = Ok k -> p_full C k = Ok a -> wd f d -> bget a i = Fin (evalR f d).
  Proof.
    intros L H W. cbn [p_ldiff] in L. unfold p_full in H.
    destruct (p_read C T0) as [t0|] eqn:R1; [cbn [rbind] in H|discriminate]. destruct (p_read C TEx) as [tex|] eqn:R2; [cbn [rbind] in H|discriminate].
    destruct (p_read C P0) as [p0|] eqn:R3; [cbn [rbind] in H|discriminate]. destruct (p_read C PEx) as [pex|] eqn:R4; [cbn [rbind] in H|discriminate].
    destruct (p_params C) as [kw|] eqn:Rd; [cbn [rbind] in H|discriminate]. rewrite <- (dkeys_params _ _ Rd) in L.
    destruct (lambdify_Ok _ _ _ _ _ L) as (-> & _ & Hse).
    assert (Inc : incl (syms d) (angle_names ++ dkeys kw)).
    { pose proof H as H'. unfold call1 in H'. destruct (call _ _ _) as [l|] eqn:Ec; [|discriminate].
      pose proof (call_syms _ _ _ _ Ec) as X. cbn [c_be c_exprs c_vars] in X. unfold all_syms in X. cbn [flat_map] in X. rewrite app_nil_r in X.
      apply X. intros B. destruct (Hse B) as [_ B']. apply subset_b_incl in B'. unfold all_syms in B'. cbn [flat_map] in B'. now rewrite app_nil_r in B'. }
    destruct (call1_spec (mk_comp (c_backend C) (angle_names ++ dkeys kw) (d :: nil)) _ _ d _ eq_refl H) as (vals & B & L' & F). cbn [c_vars] in *.
    rewrite F, (evalX_Fin _ _ f); [reflexivity| |exact W].
    intros y Hy. rewrite (env_of_angles t0 tex p0 pex kw vals i y B (Inc y Hy)). eapply env_at_fin; try eassumption. now apply Inc.
  Qed.
  Context (k : string) (sV sS : scat) (X : R -> point).
  Notation x := (X (f k)).
  Hypothesis (Fam : symbol_family w o k f sV sS X) (OV : obs_fun w o WV sV) (OS : obs_fun w o WSRF sS).
  Hypothesis (Sm : forall p e, def_str w o p e -> smooth f e) (SV : smooth f (phase_function sV)) (SS : smooth f (phase_function sS)).
  Hypothesis (P : at_point w o i x) (H0 : (0 < cos (p_t0 x))%R) (H1 : (0 < cos (p_tex x))%R).

  Lemma def_conf p e : def_str w o p e <-> c_def C p = CStr e.
  Proof.
    destruct Hc as (r & Hr & -> & _). unfold def_str. split.
    - intros (r' & Hr' & E). replace r' with r in E by congruence. change (cdef_of (w_heap w) (r_def r p) = CStr e). rewrite E. reflexivity.
    - intros E. exists r. split; [exact Hr|]. change (cdef_of (w_heap w) (r_def r p) = CStr e) in E. destruct (r_def r p); cbn [cdef_of] in E; congruence.
  Qed.
  Lemma mem_symbs p : mem k (p_symbs C p) = true <-> mentions w o p k.
  Proof.
    unfold p_symbs, mentions. split.
    - destruct (c_def C p) as [e|e|v b] eqn:E; [|discriminate|discriminate]. intros M. exists e. split; [now apply def_conf|].
      apply mem_In in M. unfold free_syms in M. now apply In_dedup.
    - intros (e & D & I). apply def_conf in D. rewrite D. apply mem_In. unfold free_syms. now apply In_dedup.
  Qed.
  (** the derivative of a parameter in [k], as the program computes it *)
  Lemma param_derive p c a : mem k (p_symbs C p) = true -> p_dparam C p k = Ok c -> p_full C c = Ok a ->
    exists d, bget a i = Fin d /\ is_derive (fun v => par p (X v)) (f k) d.
  Proof.
    intros M D H. unfold p_symbs in M. unfold p_dparam in D. destruct (c_def C p) as [e|e|v b] eqn:E; [|discriminate|discriminate].
    apply def_conf in E. destruct (ldiff_inv _ _ _ D) as (d & Ed & L). destruct (diff_derive k f e d Ed (Sm _ _ E)) as [Dd W].
    exists (evalR f d). split.
    - eapply el_full; [|exact H|exact W]. exact L.
    - apply (is_derive_ext (fun v => evalR (upd f k v) e)); [|exact Dd]. intros v. symmetry. now apply Fam.
  Qed.
  Lemma param_const p : mem k (p_symbs C p) <> true -> is_derive (fun v => par p (X v)) (f k) 0%R.
  Proof.
    intros M. apply (is_derive_ext (fun _ => par p x)); [|apply (is_derive_const (par p x))].
    intros v. destruct Fam as (_ & F2 & F3 & _). destruct (c_def C p) as [e|e|u b] eqn:E.
    - apply def_conf in E. rewrite (F2 p e E), (F2 p e E). rewrite evalR_upd_same. symmetry. apply evalR_upd_other. intros I. apply M, mem_symbs. exists e. auto.
    - symmetry. apply F3. intros e' D. apply def_conf in D. congruence.
    - symmetry. apply F3. intros e' D. apply def_conf in D. congruence.
  Qed.
  Definition fun_of (z : which) : scat := match z with WV => sV | WSRF => sS end.
  Definition scat_par (z : which) (y : point) : R := match z with WV => p_vol y | WSRF => p_brdf y end.
  Lemma conf_fun z : match z with WV => c_V C | WSRF => c_SRF C end = Ok (fun_of z).
  Proof.
    destruct Hc as (r & Hr & -> & _). destruct z; [destruct OV as (r' & Hr' & E)|destruct OS as (r' & Hr' & E)]; replace r' with r in E by congruence; exact E.
  Qed.
  Lemma scat_derive z c a : p_dlam C z k = Ok c -> p_full C c = Ok a ->
    exists d, bget a i = Fin d /\ is_derive (fun v => scat_par z (X v)) (f k) d.
  Proof.
    intros D H. unfold p_dlam in D. rewrite conf_fun in D. cbn [rbind] in D. destruct (ldiff_inv _ _ _ D) as (d & Ed & L).
    destruct (diff_derive k f _ d Ed ltac:(destruct z; assumption)) as [Dd W]. exists (evalR f d). split.
    - eapply el_full; [|exact H|exact W]. exact L.
    - apply (is_derive_ext (fun v => evalR (upd f k v) (phase_function (fun_of z)))); [|exact Dd]. intros v. rewrite ev_phase. symmetry. destruct z; apply Fam.
  Qed.
  Lemma scat_const z : ~ In k (syms (phase_function (fun_of z))) -> is_derive (fun v => scat_par z (X v)) (f k) 0%R.
  Proof.
    intros M. apply (is_derive_ext (fun _ => scat_par z x)); [|apply (is_derive_const (scat_par z x))].
    intros v. assert (E : forall u, scat_par z (X u) = evalR (upd f k u) (phase_function (fun_of z))) by (intros u; rewrite ev_phase; destruct z; apply Fam).
    rewrite (E v), (E (f k)), evalR_upd_same. symmetry. now apply evalR_upd_other.
  Qed.
End Sym.

(** ** The entry of a symbol that enters tau nowhere and each contribution in one place *)
Section SymEntry.
  Context (w : world) (q : op) (o : nat) (C : config) (fe : res (option compiled)).
  Hypothesis (G : good w q) (Hc : at_conf w o C fe).
  Context (i : list nat) (f : string -> R).
  Hypothesis (N : named w o i f).
  Context (k : string) (sV sS : scat) (X : R -> point).
  Notation x := (X (f k)).
  Hypothesis (Fam : symbol_family w o k f sV sS X) (OV : obs_fun w o WV sV) (OS : obs_fun w o WSRF sS).
  Hypothesis (Sm : forall p e, def_str w o p e -> smooth f e) (SV : smooth f (phase_function sV)) (SS : smooth f (phase_function sS)).
  Hypothesis (P : at_point w o i x) (H0 : (0 < cos (p_t0 x))%R) (H1 : (0 < cos (p_tex x))%R).
  Notation PD := (param_derive w q o C fe G Hc i f N k sV sS X Fam Sm).
  Notation PC := (param_const w o C fe Hc f k sV sS X Fam).
  Notation SD := (scat_derive w q o C fe G Hc i f N k sV sS X Fam OV OS SV SS).
  Notation SC := (scat_const w o f k sV sS X Fam).
  Notation MS := (mem_symbs w o C fe Hc k).
  Ltac rbs H := repeat match type of H with rbind ?e _ = Ok _ => let E := fresh "E" in destruct e eqn:E; [cbn [rbind] in H|discriminate H] end.
  Notation EI := (el_I0 w o C fe Hc i x P).
  Notation EM := (el_mu0 w q o C fe G Hc i x P).
  Notation EX := (el_muex w q o C fe G Hc i x P).
  Notation EP := (el_param w q o C fe G Hc i x P).
  Ltac vals := repeat match goal with
    | E : c_I0 C = Ok _ |- _ => apply EI in E | E : p_mu0 C = Ok _ |- _ => apply EM in E | E : p_muex C = Ok _ |- _ => apply EX in E
    | E : p_val C _ = Ok _ |- _ => apply EP in E; cbn beta iota in E end.

  Lemma sym_volume a : ~ mentions w o Tau k -> (mentions w o Omega k -> ~ mentions w o Bsf k) ->
    (mentions w o Omega k \/ mentions w o Bsf k -> ~ In k (syms (phase_function sV))) ->
    p_d_volume C k = Ok a ->
    exists dm db dv, is_derive (fun v => p_omega (X v)) (f k) dm /\ is_derive (fun v => p_bsfr (X v)) (f k) db /\ is_derive (fun v => p_vol (X v)) (f k) dv /\
      bget a i = Fin (dm * part_omega x + db * - vol1 x (p_vol x) + dv * part_vol x).
  Proof.
    intros Nt Nob Nv H. unfold p_d_volume in H.
    destruct (mem k (p_symbs C Tau)) eqn:Mt; [apply MS in Mt; contradiction|].
    destruct (mem k (p_symbs C Omega)) eqn:Mo.
    { rbs H. destruct (PD Omega _ _ Mo E E0) as (d & Ed & Dd). apply MS in Mo.
      exists d, 0%R, 0%R. split; [exact Dd|]. split; [apply (PC Bsf); intros Mb; apply MS in Mb; now apply Nob|]. split; [apply (SC WV); apply Nv; auto|].
      apply (el_dvolume_domega w q o C fe G Hc i x P H0 H1) in E1. unfold nmul in H. rewrite (bget_map2 _ _ _ _ i H), E1, Ed. cbn [xmul]. f_equal. ring. }
    destruct (mem k (p_symbs C Bsf)) eqn:Mb.
    { rbs H. destruct (PD Bsf _ _ Mb E E0) as (d & Ed & Dd). apply MS in Mb.
      exists 0%R, d, 0%R. split; [apply (PC Omega); rewrite Mo; discriminate|]. split; [exact Dd|]. split; [apply (SC WV); apply Nv; auto|].
      apply (el_dvolume_dbsf w q o C fe G Hc i x P H0 H1) in E1. unfold nmul in H. rewrite (bget_map2 _ _ _ _ i H), E1, Ed. cbn [xmul]. f_equal. ring. }
    rbs H. match goal with E : p_dlam _ _ _ = Ok _, E' : p_full _ _ = Ok _ |- _ => destruct (SD WV _ _ E E') as (d & Ed & Dd) end.
    exists 0%R, 0%R, d. split; [apply (PC Omega); rewrite Mo; discriminate|]. split; [apply (PC Bsf); rewrite Mb; discriminate|]. split; [exact Dd|].
    vals. erewrite (k_dvolume_direct_val i x H0 H1); [|..|exact Ed|exact H]; try eassumption. f_equal. ring.
  Qed.
  Lemma sym_surface a : (mentions w o NormBRDF k -> ~ mentions w o Bsf k) ->
    (mentions w o NormBRDF k \/ mentions w o Bsf k -> ~ In k (syms (phase_function sS))) ->
    p_d_surface C k = Ok a ->
    exists dn db ds, is_derive (fun v => p_norm (X v)) (f k) dn /\ is_derive (fun v => p_bsfr (X v)) (f k) db /\ is_derive (fun v => p_brdf (X v)) (f k) ds /\
      bget a i = Fin (dn * part_norm x + db * surf_bsf x + ds * part_brdf x).
  Proof.
    intros Nob Nv H. unfold p_d_surface in H.
    destruct (mem k (p_symbs C NormBRDF)) eqn:Mo.
    { rbs H. destruct (PD NormBRDF _ _ Mo E E0) as (d & Ed & Dd). apply MS in Mo.
      exists d, 0%R, 0%R. split; [exact Dd|]. split; [apply (PC Bsf); intros Mb; apply MS in Mb; now apply Nob|]. split; [apply (SC WSRF); apply Nv; auto|].
      apply (el_dsurface_dNormBRDF w q o C fe G Hc i x P H0 H1) in E1. unfold nmul in H. rewrite (bget_map2 _ _ _ _ i H), E1, Ed. cbn [xmul]. f_equal. ring. }
    destruct (mem k (p_symbs C Bsf)) eqn:Mb.
    { rbs H. destruct (PD Bsf _ _ Mb E E0) as (d & Ed & Dd). apply MS in Mb.
      exists 0%R, d, 0%R. split; [apply (PC NormBRDF); rewrite Mo; discriminate|]. split; [exact Dd|]. split; [apply (SC WSRF); apply Nv; auto|].
      apply (el_dsurface_dbsf w q o C fe G Hc i x P H0 H1) in E1. unfold nmul in H. rewrite (bget_map2 _ _ _ _ i H), E1, Ed. cbn [xmul]. f_equal. ring. }
    rbs H. match goal with E : p_dlam _ _ _ = Ok _, E' : p_full _ _ = Ok _ |- _ => destruct (SD WSRF _ _ E E') as (d & Ed & Dd) end.
    exists 0%R, 0%R, d. split; [apply (PC NormBRDF); rewrite Mo; discriminate|]. split; [apply (PC Bsf); rewrite Mb; discriminate|]. split; [exact Dd|].
    vals. erewrite (k_dsurface_direct_val i x H0 H1); [|..|exact Ed|exact H]; try eassumption. f_equal. ring.
  Qed.
End SymEntry.
