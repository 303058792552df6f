(** What an API call returns, as a function of the configuration: the link between histories of the
    cached program ([step], [run]) and the functions of PureCalc.v. *)
From Verif Require Export PureCalc Elem.
Open Scope nat_scope.

Lemma rbind_err {A B} (x : res A) (f : A -> res B) e : x = Err e -> rbind x f = Err e.
Proof. now intros ->. Qed.

(** ** The call handler and the parameter update *)
Section Calc.
  Context (h0 : heap) (C : config) (fe : res (option compiled)) (o : nat).
  Lemma at_calc_after : pure_at h0 C fe o
     (catch (m_calc_body o) (fun e => match e with
       | TypeError | MissingParams _ =>
           do ss <- all_param_symbs o ;;
           do r <- get_obj o ;;
           do symbs <- gets (fun h =>
             let* v := scat_at h (r_V r) in let* s := scat_at h (r_SRF r) in
             Ok (dedup_diff (ss ++ free_syms (phase_function v) ++ free_syms (phase_function s))
                            (angle_names ++ dkeys (r_params r)))) ;;
           match symbs with [] => fail e | _ => fail (MissingParams symbs) end
       | _ => fail e
       end)) (p_calc C fe).
  Proof.
    eapply at_ext. { apply at_catch; [apply at_calc_body|]. intros e. apply at_handler. }
    unfold p_calc, p_handle. destruct (p_calc_body C fe); reflexivity.
  Qed.
End Calc.

(** *** Derivatives *)
Definition p_full (c : config) (k : compiled) : res (nd xr) :=
  let* t0 := p_read c T0 in let* tex := p_read c TEx in
  let* p0 := p_read c P0 in let* pex := p_read c PEx in
  let* kw := p_params c in call1 k [t0; tex; p0; pex] kw.
Definition p_ldiff (c : config) (d : option expr) : res compiled :=
  match d with
  | None => Err Unmodelled
  | Some e => lambdify (c_backend c) (c_seng c) (angle_names ++ dkeys (c_params c)) [e]
  end.
Definition p_dparam (c : config) (p : pname) (key : string) : res compiled :=
  match c_def c p with CStr e => p_ldiff c (diff key e) | _ => p_ldiff c (Some (ENum 1)) end.
Definition p_dlam (c : config) (x : which) (key : string) : res compiled :=
  let* s := match x with WV => c_V c | WSRF => c_SRF c end in p_ldiff c (diff key (phase_function s)).

Definition p_dvolume_dtau (c : config) : res (nd xr) :=
  let* i0 := c_I0 c in let* om := p_val c Omega in let* mu0 := p_mu0 c in let* muex := p_muex c in
  let* tau := p_val c Tau in let* v := p_scat c WV in let* bsf := p_val c Bsf in
  k_dvolume_dtau i0 om mu0 muex tau v bsf.
Definition p_dvolume_domega (c : config) : res (nd xr) :=
  let* i0 := c_I0 c in let* mu0 := p_mu0 c in let* muex := p_muex c in
  let* tau := p_val c Tau in let* v := p_scat c WV in let* bsf := p_val c Bsf in
  k_dvolume_domega i0 mu0 muex tau v bsf.
Definition p_dvolume_dbsf (c : config) : res (nd xr) :=
  let* i0 := c_I0 c in let* om := p_val c Omega in let* mu0 := p_mu0 c in let* muex := p_muex c in
  let* tau := p_val c Tau in let* v := p_scat c WV in k_dvolume_dbsf i0 om mu0 muex tau v.
Definition p_dsurface_dtau (c : config) : res (nd xr) :=
  let* i0 := c_I0 c in let* mu0 := p_mu0 c in let* muex := p_muex c in let* tau := p_val c Tau in
  let* srf := p_scat c WSRF in let* norm := p_val c NormBRDF in let* bsf := p_val c Bsf in
  k_dsurface_dtau i0 mu0 muex tau srf norm bsf.
Definition p_dsurface_dNormBRDF (c : config) : res (nd xr) :=
  let* i0 := c_I0 c in let* mu0 := p_mu0 c in let* srf := p_scat c WSRF in
  let* tau := p_val c Tau in let* muex := p_muex c in let* bsf := p_val c Bsf in
  k_dsurface_dNormBRDF i0 mu0 muex srf tau bsf.
Definition p_dsurface_dbsf (c : config) : res (nd xr) :=
  let* i0 := c_I0 c in let* mu0 := p_mu0 c in let* srf := p_scat c WSRF in
  let* tau := p_val c Tau in let* muex := p_muex c in let* t0 := p_read c T0 in
  let* norm := p_val c NormBRDF in k_dsurface_dbsf i0 mu0 muex srf tau norm t0.

Definition p_d_volume (c : config) (key : string) : res (nd xr) :=
  if mem key (p_symbs c Tau) then
    let* k := p_dparam c Tau key in let* inner := p_full c k in let* d := p_dvolume_dtau c in nmul d inner
  else if mem key (p_symbs c Omega) then
    let* k := p_dparam c Omega key in let* inner := p_full c k in let* d := p_dvolume_domega c in nmul d inner
  else if mem key (p_symbs c Bsf) then
    let* k := p_dparam c Bsf key in let* inner := p_full c k in let* d := p_dvolume_dbsf c in nmul d inner
  else
    let* i0 := c_I0 c in let* om := p_val c Omega in let* mu0 := p_mu0 c in let* muex := p_muex c in
    let* tau := p_val c Tau in let* k := p_dlam c WV key in let* dv := p_full c k in
    let* bsf := p_val c Bsf in k_dvolume_direct i0 om mu0 muex tau dv bsf.
Definition p_d_surface (c : config) (key : string) : res (nd xr) :=
  if mem key (p_symbs c NormBRDF) then
    let* k := p_dparam c NormBRDF key in let* inner := p_full c k in let* d := p_dsurface_dNormBRDF c in nmul d inner
  else if mem key (p_symbs c Bsf) then
    let* k := p_dparam c Bsf key in let* inner := p_full c k in let* d := p_dsurface_dbsf c in nmul d inner
  else
    let* i0 := c_I0 c in let* mu0 := p_mu0 c in
    let* k := p_dlam c WSRF key in let* ds := p_full c k in
    let* tau := p_val c Tau in let* muex := p_muex c in
    let* norm := p_val c NormBRDF in let* bsf := p_val c Bsf in
    k_dsurface_direct i0 mu0 muex ds tau norm bsf.

Definition p_jac_norm (c : config) : res (nd xr) :=
  if c_sig0 c && negb (c_dB c) then let* mu0 := p_mu0 c in nmul (num (4 * PI)) mu0
  else if c_dB c then
    let* s := p_surface c in let* v := p_volume c in
    let* sv := nadd s v in let* d := nmul (num (ln 10)) sv in ndiv (num 10) d
  else Ok (num 1).
Definition p_jac_sv (c : config) (key : string) : res (nd xr * nd xr) :=
  if String.eqb key "omega" then let* v := p_dvolume_domega c in Ok (num 0, v)
  else if String.eqb key "tau" then let* s := p_dsurface_dtau c in let* v := p_dvolume_dtau c in Ok (s, v)
  else if String.eqb key "NormBRDF" then let* s := p_dsurface_dNormBRDF c in Ok (s, num 0)
  else if String.eqb key "bsf" then let* s := p_dsurface_dbsf c in let* v := p_dvolume_dbsf c in Ok (s, v)
  else if mem key (dkeys (c_params c)) then let* s := p_d_surface c key in let* v := p_d_volume c key in Ok (s, v)
  else Err AssertionError.
Definition p_jac_entry (c : config) (norm : nd xr) (key : string) : res (nd xr) :=
  let* sv := p_jac_sv c key in let* d := nadd (fst sv) (snd sv) in nmul d norm.
Fixpoint p_jac_entries (c : config) (norm : nd xr) (keys : list string) : res (list (nd xr)) :=
  match keys with
  | [] => Ok []
  | k :: ks => let* j := p_jac_entry c norm k in let* js := p_jac_entries c norm ks in Ok (j :: js)
  end.
Definition p_key_rows (c : config) (key : string) (j : nd xr) : res (list (list xr)) :=
  match dget (c_params c) key with
  | None => Err KeyError
  | Some v => let* p := v in if nsize p =? 1 then Ok [ravel j] else block_rows j
  end.
Fixpoint p_all_rows (c : config) (kj : list (string * nd xr)) : res (list (list xr)) :=
  match kj with
  | [] => Ok []
  | (k, j) :: kj' => let* a := p_key_rows c k j in let* b := p_all_rows c kj' in Ok (a ++ b)
  end.
Definition p_jacobian (c : config) (keys : list string) (format : string) : res jac_out :=
  let* norm := p_jac_norm c in
  let* js := p_jac_entries c norm keys in
  if String.eqb format "list" then Ok (JList js)
  else if String.eqb format "scipy_least_squares" then
    let* rows := p_all_rows c (combine keys js) in let* rows := vstack_T rows in Ok (JMatrix rows)
  else Err TypeError.

Section Jac.
  Context (h0 : heap) (C : config) (fe : res (option compiled)) (o : nat).
  Notation at_ := (pure_at h0 C fe o).

  Ltac atgo := repeat first
    [ apply at_I0 | apply at_mu0 | apply at_muex | apply at_val | apply at_scat | apply at_ang | apply at_lift
    | apply at_ret | apply at_fail | (apply at_bind; [|intros ? _]) ].

  Lemma at_full k : at_ (call_full o k) (p_full C k).
  Proof.
    unfold call_full, p_full. do 4 (apply at_bind; [apply at_ang|intros ? _]).
    apply at_get. intros r Hc _. apply at_bind; [now apply at_params|intros ? _]. apply at_lift.
  Qed.
  Lemma at_ldiff d : at_ (lambdify_diff o d) (p_ldiff C d).
  Proof.
    eapply at_pure; [apply pure_ldiff|]. intros l r Hn Hc. unfold h_ldiff, p_ldiff. destruct d; [|reflexivity].
    unfold obj. simpl h_objs. rewrite Hn. cbn [opt_res rbind]. rewrite (keys_conf h0 C r Hc). subst C. reflexivity.
  Qed.
  Lemma at_dparam p key : at_ (dparam_ddummy_lambda o p key) (p_dparam C p key).
  Proof.
    unfold dparam_ddummy_lambda, p_dparam. apply at_get. intros r Hc _.
    replace (c_def C p) with (cdef_of h0 (r_def r p)) by (subst C; reflexivity).
    destruct (r_def r p); cbn [cdef_of]; apply at_ldiff.
  Qed.
  Lemma at_dlam x key : at_ (d_dummy_lambda o x key) (p_dlam C x key).
  Proof.
    eapply at_pure; [apply pure_dlam|]. intros l r Hn Hc. unfold h_dlam, p_dlam, obj. simpl h_objs. rewrite Hn.
    cbn [opt_res rbind]. change (scat_at (set_objs h0 l) (scat_id r x)) with (scat_at h0 (scat_id r x)).
    replace (match x with WV => c_V C | WSRF => c_SRF C end) with (scat_at h0 (scat_id r x)) by (subst C; destruct x; reflexivity).
    destruct (scat_at h0 (scat_id r x)) as [s|]; cbn [rbind]; [|reflexivity]. unfold p_ldiff.
    destruct (diff key _); [|reflexivity]. rewrite (keys_conf h0 C r Hc). subst C. reflexivity.
  Qed.
  Lemma at_dvolume_dtau : at_ (dvolume_dtau o) (p_dvolume_dtau C).
  Proof. unfold dvolume_dtau, p_dvolume_dtau. atgo. Qed.
  Lemma at_dvolume_domega : at_ (dvolume_domega o) (p_dvolume_domega C).
  Proof. unfold dvolume_domega, p_dvolume_domega. atgo. Qed.
  Lemma at_dvolume_dbsf : at_ (dvolume_dbsf o) (p_dvolume_dbsf C).
  Proof. unfold dvolume_dbsf, p_dvolume_dbsf. atgo. Qed.
  Lemma at_dsurface_dtau : at_ (dsurface_dtau o) (p_dsurface_dtau C).
  Proof. unfold dsurface_dtau, p_dsurface_dtau. atgo. Qed.
  Lemma at_dsurface_dNormBRDF : at_ (dsurface_dNormBRDF o) (p_dsurface_dNormBRDF C).
  Proof. unfold dsurface_dNormBRDF, p_dsurface_dNormBRDF. atgo. Qed.
  Lemma at_dsurface_dbsf : at_ (dsurface_dbsf o) (p_dsurface_dbsf C).
  Proof. unfold dsurface_dbsf, p_dsurface_dbsf. atgo. Qed.

  Lemma at_symbs_if {A} p key (a b : M A) x y :
    at_ a x -> at_ b y ->
    at_ (do ss <- get_param_symbs o p ;; if mem key ss then a else b) (if mem key (p_symbs C p) then x else y).
  Proof.
    intros Ha Hb. eapply at_ext with (x := let* ss := Ok (p_symbs C p) in if mem key ss then x else y); [|reflexivity].
    apply at_bind; [apply at_symbs|]. intros ss _. destruct (mem key ss); assumption.
  Qed.
  Lemma at_d_volume key : at_ (d_volume_ddummy o key) (p_d_volume C key).
  Proof.
    unfold d_volume_ddummy, p_d_volume. apply at_symbs_if.
    { apply at_bind; [apply at_dparam|intros ? _]. apply at_bind; [apply at_full|intros ? _].
      apply at_bind; [apply at_dvolume_dtau|intros ? _]. apply at_lift. }
    apply at_symbs_if.
    { apply at_bind; [apply at_dparam|intros ? _]. apply at_bind; [apply at_full|intros ? _].
      apply at_bind; [apply at_dvolume_domega|intros ? _]. apply at_lift. }
    apply at_symbs_if.
    { apply at_bind; [apply at_dparam|intros ? _]. apply at_bind; [apply at_full|intros ? _].
      apply at_bind; [apply at_dvolume_dbsf|intros ? _]. apply at_lift. }
    do 2 (apply at_bind; [atgo|intros ? _]). do 2 (apply at_bind; [atgo|intros ? _]).
    apply at_bind; [apply at_val|intros ? _]. apply at_bind; [apply at_dlam|intros ? _].
    apply at_bind; [apply at_full|intros ? _]. apply at_bind; [apply at_val|intros ? _]. apply at_lift.
  Qed.
  Lemma at_d_surface key : at_ (d_surface_ddummy o key) (p_d_surface C key).
  Proof.
    unfold d_surface_ddummy, p_d_surface. apply at_symbs_if.
    { apply at_bind; [apply at_dparam|intros ? _]. apply at_bind; [apply at_full|intros ? _].
      apply at_bind; [apply at_dsurface_dNormBRDF|intros ? _]. apply at_lift. }
    apply at_symbs_if.
    { apply at_bind; [apply at_dparam|intros ? _]. apply at_bind; [apply at_full|intros ? _].
      apply at_bind; [apply at_dsurface_dbsf|intros ? _]. apply at_lift. }
    apply at_bind; [apply at_I0|intros ? _]. apply at_bind; [apply at_mu0|intros ? _].
    apply at_bind; [apply at_dlam|intros ? _]. apply at_bind; [apply at_full|intros ? _].
    apply at_bind; [apply at_val|intros ? _]. apply at_bind; [apply at_muex|intros ? _].
    apply at_bind; [apply at_val|intros ? _]. apply at_bind; [apply at_val|intros ? _]. apply at_lift.
  Qed.
  Lemma at_jac_norm : at_ (jac_norm o) (p_jac_norm C).
  Proof.
    unfold jac_norm, p_jac_norm. apply at_get. intros r Hc _.
    replace (c_sig0 C) with (r_sig0 r) by (subst C; reflexivity).
    replace (c_dB C) with (r_dB r) by (subst C; reflexivity).
    destruct (_ && _); [atgo|]. destruct (r_dB r); [|apply at_ret].
    apply at_bind; [apply at_surface|intros ? _]. apply at_bind; [apply at_volume|intros ? _]. apply at_lift.
  Qed.
  Lemma at_jac_entry norm key : at_ (jac_entry o norm key) (p_jac_entry C norm key).
  Proof.
    unfold jac_entry, p_jac_entry. apply at_get. intros r Hc _.
    apply at_bind; [|intros ? _; apply at_lift]. unfold p_jac_sv. rewrite (keys_conf h0 C r Hc).
    destruct (String.eqb key "omega").
    { unfold dsurface_domega. eapply at_ext with (x := let* s := Ok (num 0) in let* v := p_dvolume_domega C in Ok (s, v)); [|reflexivity].
      apply at_bind; [apply at_ret|intros ? _]. apply at_bind; [apply at_dvolume_domega|intros ? _]. apply at_ret. }
    destruct (String.eqb key "tau").
    { apply at_bind; [apply at_dsurface_dtau|intros ? _]. apply at_bind; [apply at_dvolume_dtau|intros ? _]. apply at_ret. }
    destruct (String.eqb key "NormBRDF").
    { apply at_bind; [apply at_dsurface_dNormBRDF|intros ? _]. unfold dvolume_dNormBRDF.
      eapply at_ext with (x := let* v := Ok (num 0) in Ok (a, v)); [|reflexivity].
      apply at_bind; [apply at_ret|intros ? _]. apply at_ret. }
    destruct (String.eqb key "bsf").
    { apply at_bind; [apply at_dsurface_dbsf|intros ? _]. apply at_bind; [apply at_dvolume_dbsf|intros ? _]. apply at_ret. }
    destruct (mem key _); [|apply at_fail].
    apply at_bind; [apply at_d_surface|intros ? _]. apply at_bind; [apply at_d_volume|intros ? _]. apply at_ret.
  Qed.
  Lemma at_jac_entries norm keys : at_ (jac_entries o norm keys) (p_jac_entries C norm keys).
  Proof.
    induction keys as [|k ks IH]; simpl; [apply at_ret|].
    apply at_bind; [apply at_jac_entry|intros ? _]. apply at_bind; [apply IH|intros ? _]. apply at_ret.
  Qed.
  Lemma key_rows_conf l r key j : conf h0 r = C -> key_rows (set_objs h0 l) r key j = p_key_rows C key j.
  Proof.
    intros Hc. unfold key_rows, p_key_rows.
    replace (dget (c_params C) key) with (option_map (sderef h0) (dget (r_params r) key)).
    - destruct (dget (r_params r) key); reflexivity.
    - subst C. simpl. symmetry. apply dget_map.
  Qed.
  Lemma all_rows_conf l r kj : conf h0 r = C -> all_rows (set_objs h0 l) r kj = p_all_rows C kj.
  Proof.
    intros Hc. induction kj as [|[k j] kj IH]; cbn [all_rows p_all_rows]; [reflexivity|].
    now rewrite (key_rows_conf l r k j Hc), IH.
  Qed.
  Lemma at_jacobian keys f : at_ (api_jacobian o keys f) (p_jacobian C keys f).
  Proof.
    unfold api_jacobian, p_jacobian. apply at_bind; [apply at_jac_norm|intros norm _].
    apply at_bind; [apply at_jac_entries|intros js _].
    destruct (String.eqb f "list"); [apply at_ret|]. destruct (String.eqb f _); [|apply at_fail].
    apply at_get. intros r Hc _. rewrite <- rbind_assoc.
    eapply at_ext with (x := let* rows := (let* rows := p_all_rows C (combine keys js) in vstack_T rows) in Ok (JMatrix rows));
      [|reflexivity].
    apply at_bind; [|intros; apply at_ret].
    eapply at_pure; [apply pureU_gets|]. intros l r' _ _. cbv beta. now rewrite (all_rows_conf l r _ Hc).
  Qed.
End Jac.
