(** The signature of the compiled fn-functions an object holds (_calc.py:845-873), after any history,
    including reassignments of R.V and R.SRF: they were compiled for the four angles followed by the
    parameter names known at that time, and names are only ever added behind those.  With
    [ob = Some be]: the backend stays [be]. *)
From Verif Require Export FnUse.
Open Scope nat_scope.

Section Keys.
Variable ob : option backend.
Definition key_ok (r : rt1) : Prop :=
  NoDup (dkeys (r_params r)) /\ forall k, r_fnev r = Some k -> r_fnevals_input r = None /\ (forall be, ob = Some be -> c_be k = be) /\
    exists seng ks ex, lambdify (c_be k) seng (fn_angle_names ++ ks) (c_exprs k) = Ok k /\ dkeys (r_params r) = ks ++ ex.
Definition Kinv (h : heap) : Prop :=
  (forall be, ob = Some be -> h_be h = be) /\ forall o r, obj h o = Ok r -> key_ok r.

(** ** evaluations *)
Definition kk {A} (m : M A) : Prop := forall w, Kinv (w_heap w) -> Kinv (w_heap (fst (m w))).
Lemma kk_ret {A} (a : A) : kk (ret a). Proof. intros w; auto. Qed.
Lemma kk_fail {A} e : kk (@fail A e). Proof. intros w; auto. Qed.
Lemma kk_lift {A} (r : res A) : kk (lift r). Proof. intros w; auto. Qed.
Lemma kk_gets {A} (f : heap -> res A) : kk (gets f). Proof. intros w; auto. Qed.
Lemma kk_bind {A B} (m : M A) (k : A -> M B) : kk m -> (forall a, kk (k a)) -> kk (bind m k).
Proof. intros Hm Hk w H. unfold bind. specialize (Hm w H). destruct (m w) as [w' [a|e]]; simpl in *; [now apply Hk|exact Hm]. Qed.
Lemma kk_catch {A} (m : M A) (k : exn -> M A) : kk m -> (forall a, kk (k a)) -> kk (catch m k).
Proof. intros Hm Hk w H. unfold catch. specialize (Hm w H). destruct (m w) as [w' [a|e]]; simpl in *; [exact Hm|now apply Hk]. Qed.
Lemma kk_cached n k m : kk m -> kk (cached n k m).
Proof.
  intros Hm w H. unfold cached. destruct (w_on w); [|now apply Hm]. destruct (lru_get (w_caches w n) k); [exact H|].
  specialize (Hm w H). destruct (m w) as [w' [a|e]]; exact Hm.
Qed.
Lemma kk_cache_clear n : kk (cache_clear n). Proof. intros w; auto. Qed.
Create HintDb kk.
#[local] Hint Resolve kk_ret kk_fail kk_lift kk_gets kk_cache_clear : kk.
Ltac kkgo :=
  repeat first
    [ progress (intros)
    | solve [auto with kk]
    | apply kk_bind
    | apply kk_catch
    | apply kk_cached
    | match goal with
      | |- kk (let '(_, _) := ?p in _) => destruct p
      | |- kk (match ?x with _ => _ end) => destruct x
      | |- kk (if ?x then _ else _) => destruct x
      end ].
Lemma kk_get_obj o : kk (get_obj o). Proof. apply kk_gets. Qed.
Lemma kk_m_ang o a : kk (m_ang o a). Proof. apply kk_gets. Qed.
Lemma kk_nmax o : kk (m_nmax o). Proof. apply kk_gets. Qed.
Lemma kk_get_I0 o : kk (get_I0 o). Proof. apply kk_gets. Qed.
#[local] Hint Resolve kk_get_obj kk_m_ang kk_nmax kk_get_I0 : kk.
Lemma kk_mu_0 o : kk (mu_0 o). Proof. unfold mu_0. kkgo. Qed.
Lemma kk_mu_ex o : kk (mu_ex o). Proof. unfold mu_ex. kkgo. Qed.
#[local] Hint Resolve kk_mu_0 kk_mu_ex : kk.
Lemma kk_mu_0_x o : kk (mu_0_x o). Proof. unfold mu_0_x. kkgo. Qed.
Lemma kk_mu_ex_x o : kk (mu_ex_x o). Proof. unfold mu_ex_x. kkgo. Qed.
Lemma kk_symbs o p : kk (get_param_symbs o p). Proof. unfold get_param_symbs. kkgo. Qed.
#[local] Hint Resolve kk_mu_0_x kk_mu_ex_x kk_symbs : kk.
Lemma kk_funcs o p : kk (get_param_funcs o p). Proof. unfold get_param_funcs. kkgo. Qed.
#[local] Hint Resolve kk_funcs : kk.
Lemma kk_eval_param o p : kk (eval_param o p). Proof. unfold eval_param. kkgo. Qed.
#[local] Hint Resolve kk_eval_param : kk.
Lemma kk_param_val o p : kk (param_val o p). Proof. unfold param_val. kkgo. Qed.
Lemma kk_lambda sid keys : kk (lambda_func sid keys). Proof. unfold lambda_func. kkgo. Qed.
#[local] Hint Resolve kk_param_val kk_lambda : kk.
Lemma kk_scat_calc sid a b c d kw : kk (scat_calc sid a b c d kw). Proof. unfold scat_calc. kkgo. Qed.
#[local] Hint Resolve kk_scat_calc : kk.
Lemma kk_obj_scat_calc o x : kk (obj_scat_calc o x). Proof. unfold obj_scat_calc. kkgo. Qed.
#[local] Hint Resolve kk_obj_scat_calc : kk.
Lemma kk_surface o : kk (m_surface o). Proof. unfold m_surface. kkgo. Qed.
Lemma kk_volume o : kk (m_volume o). Proof. unfold m_volume. kkgo. Qed.
Lemma kk_convert o v : kk (m_convert o v). Proof. unfold m_convert. kkgo. Qed.
Lemma kk_all_param_symbs o : kk (all_param_symbs o). Proof. unfold all_param_symbs. kkgo. Qed.
#[local] Hint Resolve kk_surface kk_volume kk_convert kk_all_param_symbs : kk.

(** putting an object back *)
Lemma Kinv_put h o r r' : Kinv h -> obj h o = Ok r -> key_ok r' -> Kinv (hput h o r').
Proof.
  intros [H0 H] Hr K. split; [exact H0|]. intros i ri. unfold hput. rewrite obj_put. destruct (_ && _).
  - intros E. inversion E; subst. exact K.
  - intros E. exact (H i ri E).
Qed.
Lemma kk_m_fn o : kk (m_fn o).
Proof.
  intros w H. unfold m_fn, bind, get_obj, gets.
  destruct (obj (w_heap w) o) as [r|e] eqn:Er; [|exact H].
  destruct (r_fn r) as [f|]; [exact H|]. destruct (r_fn_input r) as [f|]; [exact H|]. destruct (r_intQ r); [|exact H].
  destruct (let* v := _ in _) as [f|]; [|exact H].
  destruct (h_be (w_heap w)), (h_seng (w_heap w)); try exact H; apply (Kinv_put _ _ r); auto; exact (proj2 H o r Er).
Qed.
#[local] Hint Resolve kk_m_fn : kk.
Lemma kk_m_fnevals o : kk (m_fnevals o).
Proof.
  intros w H. unfold m_fnevals. unfold bind at 1, get_obj at 1, gets at 1.
  destruct (obj (w_heap w) o) as [r|e] eqn:Er; [|exact H].
  destruct (r_fnev r) eqn:E1; [exact H|]. destruct (r_fnevals_input r) eqn:E2; [exact H|]. destruct (r_intQ r); [|exact H].
  unfold bind at 1. pose proof (kk_m_fn o w H) as H1. pose proof (fr_m_fn o w) as Fr. pose proof (evol_frame _ _ Fr) as (_ & _ & _ & _ & Ev & _).
  destruct (m_fn o w) as [w1 [[es|]|e]]; cbn [fst snd] in *; [|exact H1|exact H1].
  unfold bind at 1, gets at 1. destruct (lambdify _ _ _ es) as [c|] eqn:El; [|exact H1].
  destruct (Ev o r Er) as (r1 & Er1 & St). unfold same_g in St.
  unfold bind at 1, get_obj, gets. rewrite Er1. unfold bind, put_obj. cbn [fst snd ret].
  change (Kinv (hput (w_heap w1) o (with_fnev r1 (Some c)))). apply (Kinv_put _ _ r1); auto.
  split; [exact (proj1 (proj2 H1 o r1 Er1))|].
  cbn [r_fnev with_fnev]. intros k Ek. inversion Ek; subst k.
  split. { cbn [r_fnevals_input with_fnev]. rewrite <- E2. now injection St. }
  destruct (lambdify_Ok _ _ _ _ _ El) as (Hk & _).
  split. { intros be Hb. rewrite Hk. cbn [c_be]. apply (proj1 H1 be Hb). }
  exists (h_seng (w_heap w1)), (dkeys (r_params r)), []. split; [rewrite Hk at 1 2; cbn [c_be c_exprs]; exact El|].
  rewrite app_nil_r. cbn [r_params with_fnev]. f_equal. now injection St.
Qed.
#[local] Hint Resolve kk_m_fnevals : kk.
Lemma kk_m_Fint o b : kk (m_Fint o b). Proof. unfold m_Fint. kkgo. Qed.
#[local] Hint Resolve kk_m_Fint : kk.
Lemma kk_interaction o : kk (m_interaction o). Proof. unfold m_interaction. kkgo. Qed.
#[local] Hint Resolve kk_interaction : kk.
Lemma kk_calc_body o : kk (m_calc_body o). Proof. unfold m_calc_body. kkgo. Qed.
#[local] Hint Resolve kk_calc_body : kk.
Lemma kk_lambdify_diff o d : kk (lambdify_diff o d). Proof. unfold lambdify_diff. kkgo. Qed.
#[local] Hint Resolve kk_lambdify_diff : kk.
Lemma kk_dlam o x key : kk (d_dummy_lambda o x key). Proof. unfold d_dummy_lambda. kkgo. Qed.
Lemma kk_call_full o c : kk (call_full o c). Proof. unfold call_full. kkgo. Qed.
Lemma kk_dparam o p k : kk (dparam_ddummy_lambda o p k). Proof. unfold dparam_ddummy_lambda. kkgo. Qed.
#[local] Hint Resolve kk_dlam kk_call_full kk_dparam : kk.
Lemma kk_dvolume_dtau o : kk (dvolume_dtau o). Proof. unfold dvolume_dtau. kkgo. Qed.
Lemma kk_dvolume_domega o : kk (dvolume_domega o). Proof. unfold dvolume_domega. kkgo. Qed.
Lemma kk_dvolume_dbsf o : kk (dvolume_dbsf o). Proof. unfold dvolume_dbsf. kkgo. Qed.
Lemma kk_dvolume_dN o : kk (dvolume_dNormBRDF o). Proof. unfold dvolume_dNormBRDF. kkgo. Qed.
Lemma kk_dsurface_dtau o : kk (dsurface_dtau o). Proof. unfold dsurface_dtau. kkgo. Qed.
Lemma kk_dsurface_domega o : kk (dsurface_domega o). Proof. unfold dsurface_domega. kkgo. Qed.
Lemma kk_dsurface_dbsf o : kk (dsurface_dbsf o). Proof. unfold dsurface_dbsf. kkgo. Qed.
Lemma kk_dsurface_dN o : kk (dsurface_dNormBRDF o). Proof. unfold dsurface_dNormBRDF. kkgo. Qed.
#[local] Hint Resolve kk_dvolume_dtau kk_dvolume_domega kk_dvolume_dbsf kk_dvolume_dN
  kk_dsurface_dtau kk_dsurface_domega kk_dsurface_dbsf kk_dsurface_dN : kk.
Lemma kk_d_volume o k : kk (d_volume_ddummy o k). Proof. unfold d_volume_ddummy. kkgo. Qed.
Lemma kk_d_surface o k : kk (d_surface_ddummy o k). Proof. unfold d_surface_ddummy. kkgo. Qed.
Lemma kk_jac_norm o : kk (jac_norm o). Proof. unfold jac_norm. kkgo. Qed.
#[local] Hint Resolve kk_d_volume kk_d_surface kk_jac_norm : kk.
Lemma kk_jac_entry o n k : kk (jac_entry o n k). Proof. unfold jac_entry. kkgo. Qed.
#[local] Hint Resolve kk_jac_entry : kk.
Lemma kk_jac_entries o n ks : kk (jac_entries o n ks).
Proof. induction ks as [|k ks IH]; simpl; kkgo. Qed.
#[local] Hint Resolve kk_jac_entries : kk.
Lemma kk_jacobian o ks f : kk (api_jacobian o ks f). Proof. unfold api_jacobian. kkgo. Qed.
#[local] Hint Resolve kk_jacobian : kk.

(** ** updates *)
Lemma kk_effOk {A} (m : M A) o f : effOk m o f -> (forall w e, obj (w_heap w) o = Err e -> w_heap (fst (m w)) = w_heap w) ->
  (forall r, key_ok r -> key_ok (fst (f r))) -> kk m.
Proof.
  intros E Er Hf w H. destruct (obj (w_heap w) o) as [r|e] eqn:Ho.
  - destruct (E w r Ho) as [-> _]. apply (Kinv_put _ _ r); auto. apply Hf. exact (proj2 H o r Ho).
  - rewrite (Er w e Ho). exact H.
Qed.
Lemma kk_effect {A} (m : M A) o f : effect m o f -> (forall r, key_ok r -> key_ok (fst (f r))) -> kk m.
Proof. intros [E1 E2] Hf. eapply kk_effOk; [exact E1| |exact Hf]. intros w e He. destruct (E2 w e He) as [-> _]. reflexivity. Qed.
Lemma key_ok_none r : NoDup (dkeys (r_params r)) -> r_fnev r = None -> key_ok r.
Proof. intros N B. split; [exact N|]. intros k H. congruence. Qed.
Lemma mono_rec_params p r : r_params (fst (mono_rec p r)) = r_params r.
Proof. destruct p as [[q|]|]; reflexivity. Qed.
Lemma bi_rec_params a b c d r : r_params (fst (bi_rec a b c d r)) = r_params r.
Proof. destruct a as [[]|], b as [[]|], c as [[]|], d as [[]|]; reflexivity. Qed.
Lemma dupdate_nodup {A} (kw : dict A) : forall d, NoDup (dkeys d) -> NoDup (dkeys (dupdate d kw)).
Proof.
  induction kw as [|[k v] kw IH]; intros d H; [exact H|]. change (dupdate d ((k, v) :: kw)) with (dupdate (dset d k v) kw).
  apply IH. now apply dkeys_dset_nodup.
Qed.
Lemma geo_loop_key_ok akw : forall r, key_ok r -> key_ok (fst (geo_loop akw r)).
Proof.
  induction akw as [|[a v] akw IH]; intros r H; [exact H|]. simpl. destruct (existsb _ _); [exact H|]. destruct v; [|exact H].
  apply IH. exact H.
Qed.
Lemma geo_rec_key_ok kw r : key_ok r -> key_ok (fst (geo_rec kw r)).
Proof. intros H. unfold geo_rec. destruct (ang_kw kw); [|exact H]. destruct (_ && _); [exact H|]. now apply geo_loop_key_ok. Qed.
Lemma upd_key_ok r kw : key_ok r -> key_ok (upd_rec r kw).
Proof.
  intros [F1 F2]. split; [now apply dupdate_nodup|]. intros k Hk. destruct (F2 k Hk) as [A [A2 (sg & ks & ex & B1 & B2)]]. split; [exact A|]. split; [exact A2|].
  assert (X : exists ex', dkeys (r_params (upd_rec r kw)) = dkeys (r_params r) ++ ex').
  { unfold upd_rec. cbn [r_params with_params].
    match goal with |- context [dupdate (r_params r) ?l] => destruct (dkeys_dupdate_prefix (r_params r) l) as (e & E & _) end. eauto. }
  destruct X as [ex' X]. exists sg, ks, (ex ++ ex'). split; [exact B1|]. rewrite X, B2, app_assoc. reflexivity.
Qed.
Lemma Kinv_grow h h' : grows h h' -> Kinv h -> Kinv h'.
Proof.
  intros G [H0 H]. pose proof (proj1 G) as B. split; [intros be Hb; rewrite B; now apply H0|]. intros o r Ho. apply (H o).
  unfold obj in *. destruct G as (_ & _ & E & _). now rewrite E in Ho.
Qed.
Lemma Kinv_app h r : Kinv h -> key_ok r -> Kinv (set_objs h (h_objs h ++ [r])).
Proof.
  intros [H0 H] K. split; [exact H0|]. intros o r' Ho. unfold obj in Ho. simpl in Ho. destruct (Nat.ltb_spec o (length (h_objs h))) as [L|L].
  - rewrite nth_error_app1 in Ho by assumption. exact (H o r' Ho).
  - rewrite nth_error_app2 in Ho by assumption. destruct (o - length (h_objs h)) as [|n]; simpl in Ho; [inversion Ho; subst; exact K|]. destruct n; discriminate.
Qed.
Lemma copy_key_ok h h' r r' : copy_of h h' r r' -> key_ok r -> key_ok r'.
Proof.
  intros (C1 & C2 & _ & _ & C5 & _ & _ & _ & _ & C10 & C11 & _ & _ & C14 & C15 & C16 & _) [F1 F2].
  split; [now rewrite (copied_p_keys _ _ _ _ C5)|].
  intros k. rewrite C16, C11. intros Hk. destruct (F2 k Hk) as [A [A2 (sg & ks & ex & B1 & B2)]]. split; [exact A|]. split; [exact A2|].
  exists sg, ks, ex. rewrite (copied_p_keys _ _ _ _ C5). auto.
Qed.
(** with a fixed backend: set_lambda_backend is not called with another one *)
Definition no_switch (p : op) : Prop :=
  match p with OSetBackend s => forall be, ob = Some be -> backend_of_str s = None \/ backend_of_str s = Some be | _ => True end.
Theorem step_Kinv w p : no_switch p -> Kinv (w_heap w) -> Kinv (w_heap (fst (step w p))).
Proof.
  intros Hp H. destruct p; cbn [step]; rewrite ?fst_as_out; simpl in Hp; revert w H;
    match goal with |- forall w, Kinv (w_heap w) -> Kinv (w_heap (fst (?m w))) => change (kk m) end.
  - intros w H. apply (Kinv_grow (w_heap w)); [|exact H]. repeat split; simpl; auto. intros i x Hx. now apply nth_error_app_l.
  - intros w H. apply (Kinv_grow (w_heap w)); [|exact H]. repeat split; simpl; auto. intros i x Hx. now apply nth_error_app_l.
  - intros w H. pose proof (new_objs V SRF iq sg db fi fe i0 w) as N.
    destruct (new_rt1 V SRF iq sg db fi fe i0 w) as [w' [n|e]] eqn:E; cbn [fst].
    + destruct N as (v & s & _ & _ & _ & N1 & N2 & N3 & N4 & N5).
      replace (w_heap w') with (set_objs (w_heap w) (h_objs (w_heap w) ++ [fst (mono_rec None (blank v s iq sg db fi fe i0))])).
      * apply Kinv_app; [exact H|]. apply key_ok_none; [|reflexivity]. repeat constructor; intros [].
      * destruct (w_heap w'); simpl in *. unfold set_objs. congruence.
    + unfold new_rt1 in E. destruct V as [v|], SRF as [s|]; try (inversion E; subst; exact H).
      exfalso. unfold bind at 1 in E. cbn [add_obj] in E. unfold bind at 1 in E.
      match type of E with context [set_monostatic ?n None ?w1] => assert (Hr : obj (w_heap w1) n = Ok (blank v s iq sg db fi fe i0));
        [apply obj_nth; simpl; rewrite nth_error_app2 by lia; now rewrite Nat.sub_diag|];
        destruct (proj1 (eff_mono n None) w1 _ Hr) as [_ X]; destruct (set_monostatic n None w1) as [w2 [x|e2]]; cbn [snd mono_rec] in *; [inversion E|discriminate X] end.
  - apply (kk_effOk _ o _ (eff_geo o kw)); [intros; eapply eff_geo_err; eassumption|]. intros r. apply geo_rec_key_ok.
  - apply (kk_effect _ o _ (eff_mono o p0)). intros r [N _]. destruct (mono_rec_none p0 r). apply key_ok_none; [now rewrite mono_rec_params|assumption].
  - apply (kk_effect _ o _ (eff_bi o t0 tex p0 pex)). intros r [N _]. destruct (bi_rec_none t0 tex p0 pex r). apply key_ok_none; [now rewrite bi_rec_params|assumption].
  - apply (kk_effect _ o _ (eff_update o kw)). intros r. apply upd_key_ok.
  - apply (kk_effOk _ o _ (eff_set_def o p d)).
    + intros w e E. unfold set_def.
      change ((clear_param_cache ;;; (do r <- get_obj o ;; put_obj o (with_def r p d))) w)
        with ((do r <- get_obj o ;; put_obj o (with_def r p d)) (fst (clear_param_cache w))).
      unfold bind, get_obj, gets. change (w_heap (fst (clear_param_cache w))) with (w_heap w). rewrite E. reflexivity.
    + intros r F. exact F.
  - apply (kk_effect _ o _ (upd_eff o (fun r => with_flags r iq sg db))). intros r F. exact F.
  - apply (kk_effect _ o _ (upd_eff o (fun r => with_I0 r v))). intros r F. exact F.
  - apply (kk_effect _ o _ (upd_eff o (fun r => with_V r s))). intros r F. exact F.
  - apply (kk_effect _ o _ (upd_eff o (fun r => with_SRF r s))). intros r F. exact F.
  - kkgo.
  - kkgo.
  - apply kk_catch; [|intros e; destruct e; kkgo]. apply kk_bind; [|kkgo]. apply (kk_effect _ o _ (eff_update o kw)). intros r. apply upd_key_ok.
  - apply kk_bind; [|kkgo]. apply (kk_effect _ o _ (eff_update o kw)). intros r. apply upd_key_ok.
  - apply kk_bind; [|kkgo]. apply (kk_effect _ o _ (eff_update o kw)). intros r. apply upd_key_ok.
  - apply kk_bind; [|kkgo]. apply (kk_effect _ o _ (eff_update o kw)). intros r. apply upd_key_ok.
  - kkgo.
  - kkgo.
  - intros w H. destruct (obj (w_heap w) o) as [r|e] eqn:Er; [|rewrite (pickle_none _ _ _ Er); exact H].
    rewrite (pickle_eq _ _ _ Er). set (w1 := fst (put_obj o (with_plots r false) w)).
    assert (H1 : Kinv (w_heap w1)). { apply (Kinv_put _ _ r); auto. exact (proj2 H o r Er). }
    assert (K1 : key_ok (with_plots r false)) by exact (proj2 H o r Er).
    pose proof (pickle_rest_spec (with_plots r false) w1) as S. destruct (pickle_rest (with_plots r false) w1) as [w' [n|e]]; cbn [fst].
    + destruct S as (_ & h' & r' & G & -> & C). apply Kinv_app; [eapply Kinv_grow; eassumption|]. eapply copy_key_ok; eassumption.
    + eapply Kinv_grow; eassumption.
  - unfold analyze_callable. kkgo.
  - intros w H. unfold set_lambda_backend. destruct (backend_of_str s) as [b|]; [|exact H].
    split; [|exact (proj2 H)]. intros be Hb. cbn [fst set_heap w_heap h_be]. destruct (Hp be Hb) as [X|X]; congruence.
  - intros w H. unfold mutate. destruct (nth_error (h_arrs (w_heap w)) aid); exact H.
  - kkgo.
  - kkgo.
  - kkgo.
  - kkgo.
Qed.
Lemma run_Kinv ps : forall w, Forall no_switch ps -> Kinv (w_heap w) -> Kinv (w_heap (fst (run w ps))).
Proof.
  induction ps as [|p ps IH]; intros w F H; [exact H|]. rewrite run_cons. inversion F; subst. apply IH; [assumption|]. now apply step_Kinv.
Qed.
End Keys.
