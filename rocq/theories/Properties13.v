(** Property theorems, part 13: jacobian() with respect to symbols (C36).
    Vocabulary as in Properties12; [named w o i f]: at position [i] angles and parameters have the values
    [f] gives to their names; [symbol_family w o k f sV sS X]: [X v] is the sample at that position when the
    symbol [k] has the value [v] (JacSym.v); [mentions w o p k]: the definition of R.<p> mentions [k];
    [smooth f e]: every operation in [e] is defined and differentiable at [f]. *)
From Coquelicot Require Import Coquelicot.
From Coq Require Import Lia List.
From Verif Require Import SpecJac SpecScat.
From Verif Require Import JacSym Properties12.
Open Scope string_scope.
Open Scope nat_scope.
Open Scope list_scope.

Definition other_key (k : string) : Prop := forall p, k <> pkey p.
(** *** C36.  Intended: the entry of any other name in R.param_dict is the derivative of surface + volume in
    the selected unit with respect to that name, wherever it occurs. *)
Definition C36_intended : Prop := forall w o keys js iq sg db i f k sV sS X n j,
  other_key k -> good w (OJacobian o keys "list") -> jac_list w o keys js -> obs_flags w o iq sg db -> named w o i f ->
  obs_fun w o WV sV -> obs_fun w o WSRF sS -> symbol_family w o k f sV sS X ->
  (forall p e, def_str w o p e -> smooth f e) -> smooth f (phase_function sV) -> smooth f (phase_function sS) ->
  at_point w o i (X (f k)) -> (0 < cos (p_t0 (X (f k))))%R -> (0 < cos (p_tex (X (f k))))%R ->
  (sg = true -> p_I0 (X (f k)) <> 0%R) -> (db = true -> 0 < direct_value (X (f k)) * unit_factor sg (X (f k)))%R ->
  (sg = true -> db = false -> p_I0 (X (f k)) = 1%R) ->
  nth_error keys n = Some k -> nth_error js n = Some j ->
  exists d, is_derive (fun v => measured sg db (X v)) (f k) d /\ bget j i = Fin d.
(** It holds if tau does not depend on the name, at most one of omega, bsf and V does, and at most one of
    NormBRDF, bsf and SRF does (up to the factor I0 of C34). *)
Theorem C36_up_to_I0_partial : forall w o keys js iq sg db i f k sV sS X n j,
  other_key k -> good w (OJacobian o keys "list") -> jac_list w o keys js -> obs_flags w o iq sg db -> named w o i f ->
  obs_fun w o WV sV -> obs_fun w o WSRF sS -> symbol_family w o k f sV sS X ->
  (forall p e, def_str w o p e -> smooth f e) -> smooth f (phase_function sV) -> smooth f (phase_function sS) ->
  at_point w o i (X (f k)) -> (0 < cos (p_t0 (X (f k))))%R -> (0 < cos (p_tex (X (f k))))%R ->
  (sg = true -> p_I0 (X (f k)) <> 0%R) -> (db = true -> 0 < direct_value (X (f k)) * unit_factor sg (X (f k)))%R ->
  nth_error keys n = Some k -> nth_error js n = Some j ->
  ~ mentions w o Tau k ->
  (mentions w o Omega k -> ~ mentions w o Bsf k) -> (mentions w o Omega k \/ mentions w o Bsf k -> ~ In k (syms (phase_function sV))) ->
  (mentions w o NormBRDF k -> ~ mentions w o Bsf k) -> (mentions w o NormBRDF k \/ mentions w o Bsf k -> ~ In k (syms (phase_function sS))) ->
  exists d, is_derive (fun v => measured sg db (X v)) (f k) d /\
    bget j i = Fin ((if sg && negb db then p_I0 (X (f k)) else 1) * d)%R.
Proof.
  intros w o keys js iq sg db i f k sV sS X n j K G J Fl N OV OS Fam Sm SV SS P H0 H1 Hi Hd Hk Hj Nt A1 A2 B1 B2.
  destruct (entry_el w o keys js iq sg db i (X (f k)) G J Fl P H0 H1 Hi Hd n k j Hk Hj) as (C & fe & s & v & Hc & E & ->).
  unfold p_jac_sv in E.
  destruct (String.eqb_spec k "omega") as [Z|_]; [now apply (K Omega) in Z|]. destruct (String.eqb_spec k "tau") as [Z|_]; [now apply (K Tau) in Z|].
  destruct (String.eqb_spec k "NormBRDF") as [Z|_]; [now apply (K NormBRDF) in Z|]. destruct (String.eqb_spec k "bsf") as [Z|_]; [now apply (K Bsf) in Z|].
  destruct (mem k _); [|discriminate E]. destruct (p_d_surface C k) as [s'|] eqn:Es; [cbn [rbind] in E|discriminate E].
  destruct (p_d_volume C k) as [v'|] eqn:Ev; [cbn [rbind] in E|discriminate E]. injection E as -> ->.
  destruct (sym_surface w _ o C fe G Hc i f N k sV sS X Fam OV OS Sm SV SS P H0 H1 s B1 B2 Es) as (dn & db1 & ds & D3 & D4 & D6 & Ea).
  destruct (sym_volume w _ o C fe G Hc i f N k sV sS X Fam OV OS Sm SV SS P H0 H1 v Nt A1 A2 Ev) as (dm & db2 & dv & D2 & D4' & D5 & Eb).
  assert (db2 = db1) by (apply is_derive_unique in D4, D4'; congruence). subst db2.
  rewrite Ea, Eb. cbn [xadd xmul].
  assert (E0 : forall v, p_I0 (X v) = p_I0 (X (f k))) by (intros; apply Fam).
  assert (E1 : forall v, p_t0 (X v) = p_t0 (X (f k))) by (intros; apply Fam).
  assert (E2 : forall v, p_tex (X v) = p_tex (X (f k))) by (intros; apply Fam).
  assert (D1 : is_derive (fun v => p_tau (X v)) (f k) 0%R).
  { apply (param_const w o C fe Hc f k sV sS X Fam Tau). intros M. now apply (mem_symbs w o C fe Hc k) in M. }
  pose proof (direct_derive X (f k) _ _ _ _ _ _ E0 E1 E2 D1 D2 D3 D4 D5 D6 ltac:(lra) ltac:(lra) ltac:(lra)) as D.
  pose proof (measured_derive X (f k) E0 E1 ltac:(lra) ltac:(lra) ltac:(lra) sg db _ D Hi Hd) as M.
  eexists. split; [exact M|]. f_equal. unfold excess, unit_slope.
  unfold part_bsf, surf_bsf, vol1, bare1. destruct sg, db; cbn [andb negb]; ring.
Qed.
Print Assumptions C36_up_to_I0_partial.
Theorem C36_partial : forall w o keys js iq sg db i f k sV sS X n j,
  other_key k -> good w (OJacobian o keys "list") -> jac_list w o keys js -> obs_flags w o iq sg db -> named w o i f ->
  obs_fun w o WV sV -> obs_fun w o WSRF sS -> symbol_family w o k f sV sS X ->
  (forall p e, def_str w o p e -> smooth f e) -> smooth f (phase_function sV) -> smooth f (phase_function sS) ->
  at_point w o i (X (f k)) -> (0 < cos (p_t0 (X (f k))))%R -> (0 < cos (p_tex (X (f k))))%R ->
  (sg = true -> p_I0 (X (f k)) <> 0%R) -> (db = true -> 0 < direct_value (X (f k)) * unit_factor sg (X (f k)))%R ->
  (sg = true -> db = false -> p_I0 (X (f k)) = 1%R) ->
  nth_error keys n = Some k -> nth_error js n = Some j ->
  ~ mentions w o Tau k ->
  (mentions w o Omega k -> ~ mentions w o Bsf k) -> (mentions w o Omega k \/ mentions w o Bsf k -> ~ In k (syms (phase_function sV))) ->
  (mentions w o NormBRDF k -> ~ mentions w o Bsf k) -> (mentions w o NormBRDF k \/ mentions w o Bsf k -> ~ In k (syms (phase_function sS))) ->
  exists d, is_derive (fun v => measured sg db (X v)) (f k) d /\ bget j i = Fin d.
Proof.
  intros w o keys js iq sg db i f k sV sS X n j K G J Fl N OV OS Fam Sm SV SS P H0 H1 Hi Hd U Hk Hj Nt A1 A2 B1 B2.
  destruct (C36_up_to_I0_partial w o keys js iq sg db i f k sV sS X n j K G J Fl N OV OS Fam Sm SV SS P H0 H1 Hi Hd Hk Hj Nt A1 A2 B1 B2) as (d & D & E).
  exists d. split; [exact D|]. rewrite E. f_equal. destruct sg, db; cbn [andb negb]; try ring. rewrite U by reflexivity. ring.
Qed.
Print Assumptions C36_partial.
(** the symbol t of the Henyey-Greenstein volume function of C35_refuted's object *)
Definition XB (v : R) : point :=
  mk_point 2 1 1 1 (1/3) (1/4) 0 (phase_value (upd fB "t" v) (VHG (ESym "t") (Some 2) a_vol)) (phase_value (upd fB "t" v) (SIso a_srf)).
Lemma wD_defs p e : def_str wD 0 p e -> e = ESym (pkey p).
Proof.
  intros (r & Hr & E).
  assert (X : match obj (w_heap wD) 0 with Ok r => r_def r p | _ => DVal (PNum NaN) end = DStr (ESym (pkey p))) by (destruct p; vm_compute; reflexivity).
  rewrite Hr, E in X. congruence.
Qed.
Lemma wD_def p : def_str wD 0 p (ESym (pkey p)).
Proof. eexists. split; [vm_compute; reflexivity|]. destruct p; reflexivity. Qed.
Lemma XB_family : symbol_family wD 0 "t" fB (VHG (ESym "t") (Some 2) a_vol) (SIso a_srf) XB.
Proof.
  split; [intros v; auto|]. split; [|split; [|split; intros v; reflexivity]].
  - intros p e D v. apply wD_defs in D. subst e. destruct p; reflexivity.
  - intros p D. exfalso. exact (D _ (wD_def p)).
Qed.
Example C36_nonvacuous : exists js j,
  other_key "t" /\ good wD (OJacobian 0 keysB "list") /\ jac_list wD 0 keysB js /\ obs_flags wD 0 false false false /\ named wD 0 (1 :: nil) fB /\
  obs_fun wD 0 WV (VHG (ESym "t") (Some 2) a_vol) /\ obs_fun wD 0 WSRF (SIso a_srf) /\
  symbol_family wD 0 "t" fB (VHG (ESym "t") (Some 2) a_vol) (SIso a_srf) XB /\
  (forall p e, def_str wD 0 p e -> smooth fB e) /\ smooth fB (phase_function (VHG (ESym "t") (Some 2) a_vol)) /\ smooth fB (phase_function (SIso a_srf)) /\
  at_point wD 0 (1 :: nil) (XB (fB "t")) /\ (0 < cos (p_t0 (XB (fB "t"))))%R /\ (0 < cos (p_tex (XB (fB "t"))))%R /\
  nth_error keysB 4 = Some "t" /\ nth_error js 4 = Some j /\ (forall p, ~ mentions wD 0 p "t") /\ In "t" (syms (phase_function (VHG (ESym "t") (Some 2) a_vol))).
Proof.
  destruct wD_jac as (js & J & L). destruct (len_nth js 4) as [j Hj]; [rewrite L; cbn; lia|]. exists js, j. pose proof cos1_pos. pose proof PI_RGT_0.
  split; [intros []; discriminate|]. split; [apply wD_jgood|]. split; [exact J|]. split; [exact wD_flags|]. split; [exact wD_named|].
  split; [apply wD_funs|]. split; [apply wD_funs|]. split; [exact XB_family|]. split; [intros p e D; apply wD_defs in D; subst e; exact I|].
  split; [apply smooth_phase; [apply wB_ok|repeat split]|].
  split; [apply smooth_phase; exact I|].
  split. { assert (E : XB (fB "t") = xB); [|rewrite E; exact wD_point]. unfold XB, xB. rewrite <- !ev_phase, !evalR_upd_same. reflexivity. }
  split; [assumption|]. split; [assumption|]. split; [reflexivity|]. split; [exact Hj|]. split; [|vm_compute; auto].
  intros p (e & D & I). apply wD_defs in D. subst e. destruct p; cbn in I; destruct I as [I|[]]; discriminate.
Qed.

(** refuted: R.tau = "x" with omega = 0; the surface contribution depends on x, the entry does not *)
Definition histT : list op :=
  histA false false false ++ OSetDef 0 Tau (DStr (ESym "x")) :: OUpdate 0 (("x", PNum (Fin 1)) :: ("omega", PNum (Fin 0)) :: nil) :: nil.
Definition wT : world := fst (run (init true true) histT).
Definition fT (s : string) : R := if String.eqb s "omega" then 0 else if String.eqb s "x" then 1 else fB s.
Definition XT (v : R) : point :=
  mk_point 2 1 1 v 0 (1/4) 0 (phase_value (upd fT "x" v) (VHG (ESym "t") (Some 2) a_vol)) (phase_value (upd fT "x" v) (SIso a_srf)).
Definition tdef (p : pname) : expr := match p with Tau => ESym "x" | _ => ESym (pkey p) end.
Lemma wT_defs p e : def_str wT 0 p e -> e = tdef p.
Proof.
  intros (r & Hr & E).
  assert (X : match obj (w_heap wT) 0 with Ok r => r_def r p | _ => DVal (PNum NaN) end = DStr (tdef p)) by (destruct p; vm_compute; reflexivity).
  rewrite Hr, E in X. congruence.
Qed.
Lemma wT_def p : def_str wT 0 p (tdef p).
Proof. eexists. split; [vm_compute; reflexivity|]. destruct p; reflexivity. Qed.
Lemma XT_family : symbol_family wT 0 "x" fT (VHG (ESym "t") (Some 2) a_vol) (SIso a_srf) XT.
Proof.
  split; [intros v; auto|]. split; [|split; [|split; intros v; reflexivity]].
  - intros p e D v. apply wT_defs in D. subst e. destruct p; reflexivity.
  - intros p D. exfalso. exact (D _ (wT_def p)).
Qed.
Lemma wT_good p : (forall J h, adm1 J h p) -> good wT p.
Proof.
  intros H. exists true, histT. split; [|reflexivity].
  unfold histT, histA. cbn [app]. repeat (split; [try exact I|]); try exact I; try apply H; intros [].
Qed.
Lemma wT_named : named wT 0 (1 :: nil) fT.
Proof.
  unfold named, obs_angle. repeat split.
  1-4: intros a H; obs_num1 H.
  intros d k a H Hk.
  assert (E : match snd (step wT (OParamDict 0)) with RetDict d => map (fun kv => (fst kv, bget (snd kv) (1 :: nil))) d | _ => nil end
    = ("bsf", Fin 0%R) :: ("tau", Fin 1%R) :: ("omega", Fin 0) :: ("NormBRDF", Fin (1/4)) :: ("t", Fin (1/4)) :: ("x", Fin 1) :: nil) by (vm_compute; reflexivity).
  rewrite H in E. clear H.
  assert (M : dget (map (fun kv => (fst kv, bget (snd kv) (1 :: nil))) d) k = Some (bget a (1 :: nil))).
  { clear E. induction d as [|[k' v] d IH]; [discriminate|]. simpl in *. destruct (String.eqb k k'); [injection Hk as ->; reflexivity|auto]. }
  rewrite E in M. clear E Hk. cbn [dget] in M.
  destruct (String.eqb_spec k "bsf") as [->|]; [injection M as <-; reflexivity|].
  destruct (String.eqb_spec k "tau") as [->|]; [injection M as <-; reflexivity|].
  destruct (String.eqb_spec k "omega") as [->|]; [injection M as <-; reflexivity|].
  destruct (String.eqb_spec k "NormBRDF") as [->|]; [injection M as <-; reflexivity|].
  destruct (String.eqb_spec k "t") as [->|]; [injection M as <-; reflexivity|].
  destruct (String.eqb_spec k "x") as [->|]; [injection M as <-; reflexivity|]. discriminate.
Qed.
Lemma wT_funs : obs_fun wT 0 WV (VHG (ESym "t") (Some 2) a_vol) /\ obs_fun wT 0 WSRF (SIso a_srf).
Proof. split; eexists; split; vm_compute; reflexivity. Qed.
Lemma XT_fT z : phase_value (upd fT "x" (fT "x")) z = phase_value fT z.
Proof. rewrite <- !ev_phase. apply evalR_upd_same. Qed.
Lemma fT_ok : ok_scat fT (VHG (ESym "t") (Some 2) a_vol) /\ ok_scat fT (SIso a_srf).
Proof.
  split; [|exact I]. simpl. unfold ok_t, ok_a, wd_a. simpl. unfold fT, fB. simpl. rewrite Q2R_1', ?Q2R_Z.
  repeat split; try exact I; try (apply Rabs_def1; lra); apply Rabs_le; lra.
Qed.
Lemma wT_point : at_point wT 0 (1 :: nil) (XT (fT "x")).
Proof.
  pose proof (wT_good (OJacobian 0 nil "list") ltac:(intros J h; exact I)) as G.
  unfold at_point, XT. rewrite !XT_fT. cbn [p_I0 p_t0 p_tex p_tau p_omega p_norm p_bsfr p_vol p_brdf].
  split. { intros a (r & Hr & Ha).
    assert (E : match obj (w_heap wT) 0 with Ok r => match deref (w_heap wT) (r_I0 r) with Ok b => bget b (1 :: nil) | _ => NaN end | _ => NaN end = Fin 2%R)
      by (vm_compute; reflexivity). rewrite Hr, Ha in E. exact E. }
  unfold obs_angle, obs_param.
  do 6 (split; [intros a H; obs_num1 H|]).
  split; intros a H.
  - apply (C48_documented_phase_functions wT (OJacobian 0 nil "list") 0 WV _ a (1 :: nil) fT G H); [apply wT_funs|apply wT_named|apply fT_ok].
  - apply (C48_documented_phase_functions wT (OJacobian 0 nil "list") 0 WSRF _ a (1 :: nil) fT G H); [apply wT_funs|apply wT_named|apply fT_ok].
Qed.
Lemma wT_jac : exists js, jac_list wT 0 ("x" :: nil) js /\ length js = 1.
Proof. apply jac_ex. vm_compute. reflexivity. Qed.
Lemma wT_flags : obs_flags wT 0 false false false.
Proof. eexists. split; [vm_compute; reflexivity|auto]. Qed.
Lemma const_der (F : R -> R) u d : is_derive F u d -> (forall v, F v = F u) -> d = 0%R.
Proof.
  intros D E. apply is_derive_unique in D. rewrite <- D. apply is_derive_unique. apply (is_derive_ext (fun _ => F u)); [intros v; symmetry; apply E|apply (is_derive_const (F u))].
Qed.
Theorem C36_refuted : ~ C36_intended.
Proof.
  intros C. destruct wT_jac as (js & J & L). destruct (len_nth js 0) as [j Hj]; [rewrite L; lia|].
  pose proof (wT_good (OJacobian 0 ("x" :: nil) "list") ltac:(intros J' h; exact I)) as G.
  assert (Pre : (0 < cos (p_t0 (XT (fT "x"))))%R) by exact cos1_pos.
  assert (Sm : forall p e, def_str wT 0 p e -> smooth fT e) by (intros p e D; apply wT_defs in D; subst e; destruct p; exact I).
  assert (SV : smooth fT (phase_function (VHG (ESym "t") (Some 2) a_vol))) by (apply smooth_phase; [apply fT_ok|repeat split]).
  assert (SS : smooth fT (phase_function (SIso a_srf))) by (apply smooth_phase; exact I).
  destruct (C wT 0 ("x" :: nil) js false false false (1 :: nil) fT "x" _ _ XT 0 j ltac:(intros []; discriminate) G J wT_flags wT_named (proj1 wT_funs) (proj2 wT_funs) XT_family
    Sm SV SS wT_point Pre Pre ltac:(discriminate) ltac:(discriminate) ltac:(discriminate) eq_refl Hj) as (d & D & E).
  destruct (entry_el wT 0 ("x" :: nil) js false false false (1 :: nil) (XT (fT "x")) G J wT_flags wT_point Pre Pre ltac:(discriminate) ltac:(discriminate) 0 "x" j eq_refl Hj)
    as (K & fe & s & v & Hc & Es & Ej).
  unfold p_jac_sv in Es. cbn [String.eqb Ascii.eqb Bool.eqb] in Es. destruct (mem "x" _); [|discriminate Es].
  destruct (p_d_surface K "x") as [s'|] eqn:Ea; [cbn [rbind] in Es|discriminate Es]. destruct (p_d_volume K "x") as [v'|] eqn:Eb; [cbn [rbind] in Es|discriminate Es].
  injection Es as -> ->.
  assert (NM : forall p, p <> Tau -> ~ mentions wT 0 p "x").
  { clear. intros p Np (e & De & I). apply wT_defs in De. subst e. destruct p; [exact (Np eq_refl)| | |]; cbn in I; destruct I as [I|[]]; discriminate. }
  destruct (sym_surface wT _ 0 K fe G Hc (1 :: nil) fT wT_named "x" _ _ XT XT_family (proj1 wT_funs) (proj2 wT_funs) Sm SV SS wT_point Pre Pre s
    ltac:(intros M; exfalso; revert M; apply NM; discriminate) ltac:(intros [M|M]; exfalso; revert M; apply NM; discriminate) Ea) as (dn & db & ds & Dn & Db & Ds & Bs).
  apply const_der in Dn, Db; [|reflexivity|reflexivity].
  apply const_der in Ds; [|intros u; reflexivity]. subst dn db ds.
  assert (MT : mem "x" (p_symbs K Tau) = true) by (apply (mem_symbs wT 0 K fe Hc); exists (ESym "x"); split; [apply (wT_def Tau)|left; reflexivity]).
  unfold p_d_volume in Eb. rewrite MT in Eb.
  destruct (p_dparam K Tau "x") as [c|] eqn:E1; [cbn [rbind] in Eb|discriminate Eb]. destruct (p_full K c) as [inner|] eqn:E2; [cbn [rbind] in Eb|discriminate Eb].
  destruct (p_dvolume_dtau K) as [dd|] eqn:E3; [cbn [rbind] in Eb|discriminate Eb].
  destruct (param_derive wT _ 0 K fe G Hc (1 :: nil) fT wT_named "x" _ _ XT XT_family Sm Tau c inner MT E1 E2) as (dt & Ei & Dt).
  apply (el_dvolume_dtau wT _ 0 K fe G Hc (1 :: nil) _ wT_point Pre Pre) in E3.
  unfold nmul in Eb. rewrite (bget_map2 _ _ _ _ (1 :: nil) Eb), E3, Ei, Bs in Ej. cbn [xadd xmul] in Ej. rewrite E in Ej. injection Ej as Ej.
  replace (code_vol_tau (XT (fT "x"))) with 0%R in Ej by (unfold code_vol_tau; cbn [XT p_omega]; ring).
  assert (Z : d = 0%R) by (rewrite Ej; match goal with |- ?a = ?b => change (@eq R a b) end; ring).
  pose proof (measured_par false false Tau (XT (fT "x")) Pre Pre ltac:(discriminate) ltac:(discriminate)) as M.
  assert (M' : is_derive (fun v => measured false false (XT v)) (fT "x") (unit_slope false false (XT (fT "x")) * part Tau (XT (fT "x")))%R).
  { revert M. apply is_derive_ext. intros u. cbn [set_par par]. unfold measured, direct_value, surface_value, volume_value. cbn. reflexivity. }
  apply is_derive_unique in D, M'. assert (Q : (unit_slope false false (XT (fT "x")) * part Tau (XT (fT "x")) = 0)%R) by congruence.
  unfold unit_slope, unit_factor, part, part_tau in Q. 
  change (p_bsfr (XT (fT "x"))) with 0%R in Q. change (p_omega (XT (fT "x"))) with 0%R in Q. change (p_I0 (XT (fT "x"))) with 2%R in Q. change (p_norm (XT (fT "x"))) with (1/4)%R in Q.
  change (p_t0 (XT (fT "x"))) with 1%R in Q. change (p_tex (XT (fT "x"))) with 1%R in Q. pose proof cos1_pos as C1.
  assert (A : (0 < attenuation (XT (fT "x")))%R) by apply exp_pos.
  assert (B : (0 < p_brdf (XT (fT "x")))%R) by exact xB_brdf.
  assert (Q' : (attenuation (XT (fT "x")) * p_brdf (XT (fT "x")) = 0)%R).
  { replace (attenuation (XT (fT "x")) * p_brdf (XT (fT "x")))%R with (- (1 * (- (1 / cos 1 + 1 / cos 1) * attenuation (XT (fT "x")) * (1 / 4 * (1 - 0) * (2 * cos 1 * p_brdf (XT (fT "x")))) +
      (1 - 0) * (2 * 0 * (cos 1 / (cos 1 + cos 1)) * ((1 / cos 1 + 1 / cos 1) * attenuation (XT (fT "x"))) * p_vol (XT (fT "x"))))))%R by (field; lra). rewrite Q. ring. }
  pose proof (Rmult_lt_0_compat _ _ A B). lra.
Qed.
Print Assumptions C36_refuted.
