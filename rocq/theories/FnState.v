(** The fn-functions an object holds belong to its V, SRF and geometry, as long as V and SRF are not
    reassigned; and the geometry slots used for them are those of its mode, as long as no change of the
    mode was rejected. *)
From Verif Require Export Pickle.
Open Scope nat_scope.

(** [f] is what _fn has to be (_calc.py:815-843) *)
Definition fn_src (h : heap) (r : rt1) (f : list expr) : Prop :=
  match r_fn_input r with
  | Some g => f = g
  | None => exists v s, scat_at h (r_V r) = Ok v /\ scat_at h (r_SRF r) = Ok s /\ calc_fn v s (r_geom r) = Ok f
  end.
Definition fnev_src (h : heap) (r : rt1) (k : compiled) : Prop :=
  exists seng ks ex f, lambdify (c_be k) seng (fn_angle_names ++ ks) f = Ok k /\ dkeys (r_params r) = ks ++ ex /\ fn_src h r f.
Definition fn_ok (h : heap) (r : rt1) : Prop :=
  (forall f, r_fn r = Some f -> fn_src h r f) /\
  (forall k, r_fnev r = Some k -> r_fnevals_input r = None /\ fnev_src h r k).
Definition Finv (h : heap) : Prop := forall o r, obj h o = Ok r -> fn_ok h r.

(** the same object up to the memoised functions *)
Lemma fn_src_strip h r r' f : strip r = strip r' -> fn_src h r f -> fn_src h r' f.
Proof. intros E. unfold fn_src. replace (r_fn_input r') with (r_fn_input r) by (now injection E).
  replace (r_V r') with (r_V r) by (now injection E). replace (r_SRF r') with (r_SRF r) by (now injection E).
  replace (r_geom r') with (r_geom r) by (now injection E). auto. Qed.

(** ** evaluations *)
Definition kf {A} (m : M A) : Prop := forall w, Finv (w_heap w) -> Finv (w_heap (fst (m w))).
Lemma kf_ret {A} (a : A) : kf (ret a). Proof. intros w; auto. Qed.
Lemma kf_fail {A} e : kf (@fail A e). Proof. intros w; auto. Qed.
Lemma kf_lift {A} (r : res A) : kf (lift r). Proof. intros w; auto. Qed.
Lemma kf_gets {A} (f : heap -> res A) : kf (gets f). Proof. intros w; auto. Qed.
Lemma kf_bind {A B} (m : M A) (k : A -> M B) : kf m -> (forall a, kf (k a)) -> kf (bind m k).
Proof. intros Hm Hk w H. unfold bind. specialize (Hm w H). destruct (m w) as [w' [a|e]]; simpl in *; [now apply Hk|exact Hm]. Qed.
Lemma kf_catch {A} (m : M A) (k : exn -> M A) : kf m -> (forall a, kf (k a)) -> kf (catch m k).
Proof. intros Hm Hk w H. unfold catch. specialize (Hm w H). destruct (m w) as [w' [a|e]]; simpl in *; [exact Hm|now apply Hk]. Qed.
Lemma kf_cached n k m : kf m -> kf (cached n k m).
Proof.
  intros Hm w H. unfold cached. destruct (w_on w); [|now apply Hm]. destruct (lru_get (w_caches w n) k); [exact H|].
  specialize (Hm w H). destruct (m w) as [w' [a|e]]; exact Hm.
Qed.
Lemma kf_cache_clear n : kf (cache_clear n). Proof. intros w; auto. Qed.
Create HintDb kf.
#[export] Hint Resolve kf_ret kf_fail kf_lift kf_gets kf_cache_clear : kf.
Ltac kfgo :=
  repeat first
    [ progress (intros)
    | solve [auto with kf]
    | apply kf_bind
    | apply kf_catch
    | apply kf_cached
    | match goal with
      | |- kf (let '(_, _) := ?p in _) => destruct p
      | |- kf (match ?x with _ => _ end) => destruct x
      | |- kf (if ?x then _ else _) => destruct x
      end ].
Lemma kf_get_obj o : kf (get_obj o). Proof. apply kf_gets. Qed.
Lemma kf_m_ang o a : kf (m_ang o a). Proof. apply kf_gets. Qed.
Lemma kf_nmax o : kf (m_nmax o). Proof. apply kf_gets. Qed.
Lemma kf_get_I0 o : kf (get_I0 o). Proof. apply kf_gets. Qed.
#[export] Hint Resolve kf_get_obj kf_m_ang kf_nmax kf_get_I0 : kf.
Lemma kf_mu_0 o : kf (mu_0 o). Proof. unfold mu_0. kfgo. Qed.
Lemma kf_mu_ex o : kf (mu_ex o). Proof. unfold mu_ex. kfgo. Qed.
#[export] Hint Resolve kf_mu_0 kf_mu_ex : kf.
Lemma kf_mu_0_x o : kf (mu_0_x o). Proof. unfold mu_0_x. kfgo. Qed.
Lemma kf_mu_ex_x o : kf (mu_ex_x o). Proof. unfold mu_ex_x. kfgo. Qed.
Lemma kf_symbs o p : kf (get_param_symbs o p). Proof. unfold get_param_symbs. kfgo. Qed.
#[export] Hint Resolve kf_mu_0_x kf_mu_ex_x kf_symbs : kf.
Lemma kf_funcs o p : kf (get_param_funcs o p). Proof. unfold get_param_funcs. kfgo. Qed.
#[export] Hint Resolve kf_funcs : kf.
Lemma kf_eval_param o p : kf (eval_param o p). Proof. unfold eval_param. kfgo. Qed.
#[export] Hint Resolve kf_eval_param : kf.
Lemma kf_param_val o p : kf (param_val o p). Proof. unfold param_val. kfgo. Qed.
Lemma kf_lambda sid keys : kf (lambda_func sid keys). Proof. unfold lambda_func. kfgo. Qed.
#[export] Hint Resolve kf_param_val kf_lambda : kf.
Lemma kf_scat_calc sid a b c d kw : kf (scat_calc sid a b c d kw). Proof. unfold scat_calc. kfgo. Qed.
#[export] Hint Resolve kf_scat_calc : kf.
Lemma kf_obj_scat_calc o x : kf (obj_scat_calc o x). Proof. unfold obj_scat_calc. kfgo. Qed.
#[export] Hint Resolve kf_obj_scat_calc : kf.
Lemma kf_surface o : kf (m_surface o). Proof. unfold m_surface. kfgo. Qed.
Lemma kf_volume o : kf (m_volume o). Proof. unfold m_volume. kfgo. Qed.
Lemma kf_convert o v : kf (m_convert o v). Proof. unfold m_convert. kfgo. Qed.
Lemma kf_all_param_symbs o : kf (all_param_symbs o). Proof. unfold all_param_symbs. kfgo. Qed.
#[export] Hint Resolve kf_surface kf_volume kf_convert kf_all_param_symbs : kf.

(** putting an object back *)
Lemma Finv_put h o r r' : Finv h -> obj h o = Ok r -> fn_ok h r' -> Finv (hput h o r').
Proof.
  intros H Hr K i ri. unfold hput. rewrite obj_put. destruct (_ && _).
  - intros E. inversion E; subst. exact K.
  - intros E. exact (H i ri E).
Qed.
Lemma m_fn_spec o w : Finv (w_heap w) ->
  Finv (w_heap (fst (m_fn o w))) /\
  match snd (m_fn o w) with
  | Ok (Some f) => forall r, obj (w_heap w) o = Ok r -> fn_src (w_heap w) r f
  | _ => True end.
Proof.
  intros H. unfold m_fn, bind, get_obj, gets.
  destruct (obj (w_heap w) o) as [r|e] eqn:Er; [|split; [exact H|exact I]].
  destruct (H o r Er) as [F1 F2].
  destruct (r_fn r) as [f|] eqn:Ef.
  { simpl. split; [assumption|]. intros r' Hr'. assert (r' = r) by congruence. subst. now apply F1. }
  destruct (r_fn_input r) as [f|] eqn:Ei.
  { simpl. split; [assumption|]. intros r' Hr'. assert (r' = r) by congruence. subst. unfold fn_src. now rewrite Ei. }
  destruct (r_intQ r); [|simpl; auto].
  destruct (scat_at (w_heap w) (r_V r)) as [v|] eqn:Ev; cbn [rbind]; [|simpl; auto].
  destruct (scat_at (w_heap w) (r_SRF r)) as [s|] eqn:Es; cbn [rbind]; [|simpl; auto].
  destruct (calc_fn v s (r_geom r)) as [f|] eqn:Ec; cbn [rbind]; [|simpl; auto].
  assert (S : fn_src (w_heap w) r f) by (unfold fn_src; rewrite Ei; eauto).
  assert (P : Finv (hput (w_heap w) o (with_fn r (Some f)))).
  { apply (Finv_put _ _ r); auto. split.
    - simpl. intros g E. inversion E; subst. exact S.
    - simpl. intros k Ek. destruct (F2 k Ek) as [A (sg & ks & ex & f0 & B1 & B2 & B3)]. split; [assumption|]. exists sg, ks, ex, f0. repeat split; assumption. }
  destruct (h_be (w_heap w)), (h_seng (w_heap w)); simpl; try (split; [exact P|intros r' Hr'; assert (r' = r) by congruence; now subst]); auto.
Qed.
Lemma kf_m_fn o : kf (m_fn o). Proof. intros w H. now apply m_fn_spec. Qed.
#[export] Hint Resolve kf_m_fn : kf.
Lemma kf_m_fnevals o : kf (m_fnevals o).
Proof.
  intros w H. unfold m_fnevals. unfold bind at 1, get_obj at 1, gets at 1.
  destruct (obj (w_heap w) o) as [r|e] eqn:Er; [|exact H].
  destruct (r_fnev r) eqn:E1; [exact H|]. destruct (r_fnevals_input r) eqn:E2; [exact H|]. destruct (r_intQ r); [|exact H].
  unfold bind at 1. destruct (m_fn_spec o w H) as [H1 H2]. pose proof (fr_m_fn o w) as Fr. pose proof (evol_frame _ _ Fr) as (_ & _ & _ & _ & Ev & _).
  assert (Hsc : h_scats (w_heap (fst (m_fn o w))) = h_scats (w_heap w)) by (now injection Fr).
  destruct (m_fn o w) as [w1 [[es|]|e]]; cbn [fst snd] in *; [|exact H1|exact H1].
  unfold bind at 1, gets at 1. destruct (lambdify _ _ _ es) as [c|] eqn:El; [|exact H1].
  destruct (Ev o r Er) as (r1 & Er1 & St). unfold same_g in St.
  unfold bind at 1, get_obj, gets. rewrite Er1. unfold bind, put_obj. cbn [fst snd ret].
  change (Finv (hput (w_heap w1) o (with_fnev r1 (Some c)))). apply (Finv_put _ _ r1); auto.
  destruct (H1 o r1 Er1) as [F1 F2]. split; [exact F1|]. cbn [r_fnev with_fnev]. intros k Ek. inversion Ek; subst k.
  split. { cbn [r_fnevals_input with_fnev]. rewrite <- E2. now injection St. }
  assert (Hk : c = mk_comp (h_be (w_heap w1)) (fn_angle_names ++ dkeys (r_params r)) es).
  { unfold lambdify in El. destruct (h_be (w_heap w1)).
    - destruct (no_dup_b _); inversion El; reflexivity.
    - destruct (h_seng (w_heap w1)); [|discriminate]. destruct (no_dup_b _); [|discriminate]. simpl in El. destruct (subset_b _ _); inversion El; reflexivity. }
  exists (h_seng (w_heap w1)), (dkeys (r_params r)), [], es. split; [subst c; exact El|]. split.
  - rewrite app_nil_r. cbn [r_params with_fnev]. f_equal. now injection St.
  - pose proof (fn_src_strip _ _ _ _ (eq_sym St) (H2 r Er)) as X. clear -X Hsc. unfold fn_src, scat_at in *. cbn [r_fn_input r_V r_SRF r_geom with_fnev] in *. now rewrite Hsc.
Qed.
#[export] Hint Resolve kf_m_fnevals : kf.
Lemma kf_m_Fint o b : kf (m_Fint o b). Proof. unfold m_Fint. kfgo. Qed.
#[export] Hint Resolve kf_m_Fint : kf.
Lemma kf_interaction o : kf (m_interaction o). Proof. unfold m_interaction. kfgo. Qed.
#[export] Hint Resolve kf_interaction : kf.
Lemma kf_calc_body o : kf (m_calc_body o). Proof. unfold m_calc_body. kfgo. Qed.
#[export] Hint Resolve kf_calc_body : kf.
Lemma kf_lambdify_diff o d : kf (lambdify_diff o d). Proof. unfold lambdify_diff. kfgo. Qed.
#[export] Hint Resolve kf_lambdify_diff : kf.
Lemma kf_dlam o x key : kf (d_dummy_lambda o x key). Proof. unfold d_dummy_lambda. kfgo. Qed.
Lemma kf_call_full o c : kf (call_full o c). Proof. unfold call_full. kfgo. Qed.
Lemma kf_dparam o p k : kf (dparam_ddummy_lambda o p k). Proof. unfold dparam_ddummy_lambda. kfgo. Qed.
#[export] Hint Resolve kf_dlam kf_call_full kf_dparam : kf.
Lemma kf_dvolume_dtau o : kf (dvolume_dtau o). Proof. unfold dvolume_dtau. kfgo. Qed.
Lemma kf_dvolume_domega o : kf (dvolume_domega o). Proof. unfold dvolume_domega. kfgo. Qed.
Lemma kf_dvolume_dbsf o : kf (dvolume_dbsf o). Proof. unfold dvolume_dbsf. kfgo. Qed.
Lemma kf_dvolume_dN o : kf (dvolume_dNormBRDF o). Proof. unfold dvolume_dNormBRDF. kfgo. Qed.
Lemma kf_dsurface_dtau o : kf (dsurface_dtau o). Proof. unfold dsurface_dtau. kfgo. Qed.
Lemma kf_dsurface_domega o : kf (dsurface_domega o). Proof. unfold dsurface_domega. kfgo. Qed.
Lemma kf_dsurface_dbsf o : kf (dsurface_dbsf o). Proof. unfold dsurface_dbsf. kfgo. Qed.
Lemma kf_dsurface_dN o : kf (dsurface_dNormBRDF o). Proof. unfold dsurface_dNormBRDF. kfgo. Qed.
#[export] Hint Resolve kf_dvolume_dtau kf_dvolume_domega kf_dvolume_dbsf kf_dvolume_dN
  kf_dsurface_dtau kf_dsurface_domega kf_dsurface_dbsf kf_dsurface_dN : kf.
Lemma kf_d_volume o k : kf (d_volume_ddummy o k). Proof. unfold d_volume_ddummy. kfgo. Qed.
Lemma kf_d_surface o k : kf (d_surface_ddummy o k). Proof. unfold d_surface_ddummy. kfgo. Qed.
Lemma kf_jac_norm o : kf (jac_norm o). Proof. unfold jac_norm. kfgo. Qed.
#[export] Hint Resolve kf_d_volume kf_d_surface kf_jac_norm : kf.
Lemma kf_jac_entry o n k : kf (jac_entry o n k). Proof. unfold jac_entry. kfgo. Qed.
#[export] Hint Resolve kf_jac_entry : kf.
Lemma kf_jac_entries o n ks : kf (jac_entries o n ks).
Proof. induction ks as [|k ks IH]; simpl; kfgo. Qed.
#[export] Hint Resolve kf_jac_entries : kf.
Lemma kf_jacobian o ks f : kf (api_jacobian o ks f). Proof. unfold api_jacobian. kfgo. Qed.
#[export] Hint Resolve kf_jacobian : kf.

(** ** updates *)
Lemma kf_effOk {A} (m : M A) o f : effOk m o f -> (forall w e, obj (w_heap w) o = Err e -> w_heap (fst (m w)) = w_heap w) ->
  (forall h r, fn_ok h r -> fn_ok h (fst (f r))) -> kf m.
Proof.
  intros E Er Hf w H. destruct (obj (w_heap w) o) as [r|e] eqn:Ho.
  - destruct (E w r Ho) as [-> _]. apply (Finv_put _ _ r); auto. apply Hf. exact (H o r Ho).
  - rewrite (Er w e Ho). exact H.
Qed.
Lemma kf_effect {A} (m : M A) o f : effect m o f -> (forall h r, fn_ok h r -> fn_ok h (fst (f r))) -> kf m.
Proof. intros [E1 E2] Hf. eapply kf_effOk; [exact E1| |exact Hf]. intros w e He. destruct (E2 w e He) as [-> _]. reflexivity. Qed.
Lemma fn_ok_none h r : r_fn r = None -> r_fnev r = None -> fn_ok h r.
Proof. intros A B. split; intros x H; congruence. Qed.
Lemma mono_rec_none p r : r_fn (fst (mono_rec p r)) = None /\ r_fnev (fst (mono_rec p r)) = None.
Proof. destruct p as [[q|]|]; split; reflexivity. Qed.
Lemma bi_rec_none a b c d r : r_fn (fst (bi_rec a b c d r)) = None /\ r_fnev (fst (bi_rec a b c d r)) = None.
Proof. destruct a as [[]|], b as [[]|], c as [[]|], d as [[]|]; split; reflexivity. Qed.
Lemma geo_loop_fn_ok h akw : forall r, fn_ok h r -> fn_ok h (fst (geo_loop akw r)).
Proof.
  induction akw as [|[a v] akw IH]; intros r H; [exact H|]. simpl. destruct (existsb _ _); [exact H|]. destruct v; [|exact H].
  apply IH. exact H.
Qed.
Lemma geo_rec_fn_ok h kw r : fn_ok h r -> fn_ok h (fst (geo_rec kw r)).
Proof. intros H. unfold geo_rec. destruct (ang_kw kw); [|exact H]. destruct (_ && _); [exact H|]. now apply geo_loop_fn_ok. Qed.
Lemma upd_fn_ok h r kw : fn_ok h r -> fn_ok h (upd_rec r kw).
Proof.
  intros [F1 F2]. split; [exact F1|]. intros k Hk. destruct (F2 k Hk) as [A (sg & ks & ex & f0 & B1 & B2 & B3)]. split; [exact A|].
  assert (X : exists ex', dkeys (r_params (upd_rec r kw)) = dkeys (r_params r) ++ ex').
  { unfold upd_rec. cbn [r_params with_params].
    match goal with |- context [dupdate (r_params r) ?l] => destruct (dkeys_dupdate_prefix (r_params r) l) as (e & E & _) end. eauto. }
  destruct X as [ex' X]. exists sg, ks, (ex ++ ex'), f0. split; [exact B1|]. split; [rewrite X, B2, app_assoc; reflexivity|exact B3].
Qed.
Lemma fn_ok_scats h h' r : (forall i s, scat_at h i = Ok s -> scat_at h' i = Ok s) -> fn_ok h r -> fn_ok h' r.
Proof.
  intros G [F1 F2].
  assert (S : forall f, fn_src h r f -> fn_src h' r f).
  { intros f. unfold fn_src. destruct (r_fn_input r); [auto|]. intros (v & s & A & B & C). exists v, s. auto. }
  split; [auto|]. intros k Hk. destruct (F2 k Hk) as [A (sg & ks & ex & f0 & B1 & B2 & B3)]. split; [exact A|]. exists sg, ks, ex, f0. auto.
Qed.
Lemma Finv_grow h h' : grows h h' -> Finv h -> Finv h'.
Proof.
  intros G H o r Ho. assert (Ho' : obj h o = Ok r). { unfold obj in *. destruct G as (_ & _ & E & _). now rewrite E in Ho. }
  apply (fn_ok_scats h); [|exact (H o r Ho')]. intros i s. now apply grows_scat.
Qed.
Lemma Finv_app h r : Finv h -> fn_ok h r -> Finv (set_objs h (h_objs h ++ [r])).
Proof.
  intros H K o r' Ho. unfold obj in Ho. simpl in Ho. destruct (Nat.ltb_spec o (length (h_objs h))) as [L|L].
  - rewrite nth_error_app1 in Ho by assumption. exact (H o r' Ho).
  - rewrite nth_error_app2 in Ho by assumption. destruct (o - length (h_objs h)) as [|n]; simpl in Ho; [inversion Ho; subst; exact K|]. destruct n; discriminate.
Qed.
Lemma copied_p_keys h h' d d' : copied_p h h' d d' -> dkeys d' = dkeys d.
Proof. intros H. unfold dkeys. induction H as [|x y d d' [E _] _ IH]; simpl; congruence. Qed.
Lemma copy_fn_ok h h' r r' : copy_of h h' r r' -> fn_ok h r -> fn_ok h' r'.
Proof.
  intros (C1 & C2 & _ & _ & C5 & _ & _ & _ & _ & C10 & C11 & _ & _ & C14 & C15 & C16 & _) [F1 F2].
  assert (S : forall f, fn_src h r f -> fn_src h' r' f).
  { intros f. unfold fn_src. rewrite C10, C14. destruct (r_fn_input r); [auto|]. intros (v & s & A & B & C). exists v, s. auto. }
  split; [rewrite C15; auto|]. rewrite C16, C11. intros k Hk. destruct (F2 k Hk) as [A (sg & ks & ex & f0 & B1 & B2 & B3)]. split; [exact A|].
  exists sg, ks, ex, f0. rewrite (copied_p_keys _ _ _ _ C5). auto.
Qed.
Definition reassigns (p : op) : Prop := match p with OSetV _ _ | OSetSRF _ _ => True | _ => False end.
Theorem step_Finv w p : ~ reassigns p -> Finv (w_heap w) -> Finv (w_heap (fst (step w p))).
Proof.
  intros Hp H. destruct p; cbn [step]; rewrite ?fst_as_out; simpl in Hp; try (exfalso; apply Hp; exact I); revert w H;
    match goal with |- forall w, Finv (w_heap w) -> Finv (w_heap (fst (?m w))) => change (kf m) end.
  - intros w H. apply (Finv_grow (w_heap w)); [|exact H]. repeat split; simpl; auto. intros i x Hx. now apply nth_error_app_l.
  - intros w H. apply (Finv_grow (w_heap w)); [|exact H]. repeat split; simpl; auto. intros i x Hx. now apply nth_error_app_l.
  - intros w H. pose proof (new_objs V SRF iq sg db fi fe i0 w) as N.
    destruct (new_rt1 V SRF iq sg db fi fe i0 w) as [w' [n|e]] eqn:E; cbn [fst].
    + destruct N as (v & s & _ & _ & _ & N1 & N2 & N3 & N4 & N5).
      replace (w_heap w') with (set_objs (w_heap w) (h_objs (w_heap w) ++ [fst (mono_rec None (blank v s iq sg db fi fe i0))])).
      * apply Finv_app; [exact H|]. now apply fn_ok_none.
      * destruct (w_heap w'); simpl in *. unfold set_objs. congruence.
    + unfold new_rt1 in E. destruct V as [v|], SRF as [s|]; try (inversion E; subst; exact H).
      exfalso. unfold bind at 1 in E. cbn [add_obj] in E. unfold bind at 1 in E.
      match type of E with context [set_monostatic ?n None ?w1] => assert (Hr : obj (w_heap w1) n = Ok (blank v s iq sg db fi fe i0));
        [apply obj_nth; simpl; rewrite nth_error_app2 by lia; now rewrite Nat.sub_diag|];
        destruct (proj1 (eff_mono n None) w1 _ Hr) as [_ X]; destruct (set_monostatic n None w1) as [w2 [x|e2]]; cbn [snd mono_rec] in *; [inversion E|discriminate X] end.
  - apply (kf_effOk _ o _ (eff_geo o kw)); [intros; eapply eff_geo_err; eassumption|]. intros h r. apply geo_rec_fn_ok.
  - apply (kf_effect _ o _ (eff_mono o p0)). intros h r _. destruct (mono_rec_none p0 r). now apply fn_ok_none.
  - apply (kf_effect _ o _ (eff_bi o t0 tex p0 pex)). intros h r _. destruct (bi_rec_none t0 tex p0 pex r). now apply fn_ok_none.
  - apply (kf_effect _ o _ (eff_update o kw)). intros h r. apply upd_fn_ok.
  - apply (kf_effOk _ o _ (eff_set_def o p d)).
    + intros w e E. unfold set_def.
      change ((clear_param_cache ;;; (do r <- get_obj o ;; put_obj o (with_def r p d))) w)
        with ((do r <- get_obj o ;; put_obj o (with_def r p d)) (fst (clear_param_cache w))).
      unfold bind, get_obj, gets. change (w_heap (fst (clear_param_cache w))) with (w_heap w). rewrite E. reflexivity.
    + intros h r F. exact F.
  - apply (kf_effect _ o _ (upd_eff o (fun r => with_flags r iq sg db))). intros h r F. exact F.
  - apply (kf_effect _ o _ (upd_eff o (fun r => with_I0 r v))). intros h r F. exact F.
  - kfgo.
  - kfgo.
  - apply kf_catch; [|intros e; destruct e; kfgo]. apply kf_bind; [|kfgo]. apply (kf_effect _ o _ (eff_update o kw)). intros h r. apply upd_fn_ok.
  - apply kf_bind; [|kfgo]. apply (kf_effect _ o _ (eff_update o kw)). intros h r. apply upd_fn_ok.
  - apply kf_bind; [|kfgo]. apply (kf_effect _ o _ (eff_update o kw)). intros h r. apply upd_fn_ok.
  - apply kf_bind; [|kfgo]. apply (kf_effect _ o _ (eff_update o kw)). intros h r. apply upd_fn_ok.
  - kfgo.
  - kfgo.
  - intros w H. destruct (obj (w_heap w) o) as [r|e] eqn:Er; [|rewrite (pickle_none _ _ _ Er); exact H].
    rewrite (pickle_eq _ _ _ Er). set (w1 := fst (put_obj o (with_plots r false) w)).
    assert (H1 : Finv (w_heap w1)). { apply (Finv_put _ _ r); auto. exact (H o r Er). }
    assert (K1 : fn_ok (w_heap w1) (with_plots r false)) by exact (H o r Er).
    pose proof (pickle_rest_spec (with_plots r false) w1) as S. destruct (pickle_rest (with_plots r false) w1) as [w' [n|e]]; cbn [fst].
    + destruct S as (_ & h' & r' & G & -> & C). apply Finv_app; [eapply Finv_grow; eassumption|]. eapply copy_fn_ok; eassumption.
    + eapply Finv_grow; eassumption.
  - unfold analyze_callable. kfgo.
  - intros w H. unfold set_lambda_backend. destruct (backend_of_str s); exact H.
  - intros w H. unfold mutate. destruct (nth_error (h_arrs (w_heap w)) aid); exact H.
  - kfgo.
  - kfgo.
  - kfgo.
  - kfgo.
Qed.
Lemma Finv_init seng on : Finv (w_heap (init seng on)).
Proof. intros o r H. unfold obj in H. simpl in H. destruct o; discriminate. Qed.
Lemma run_Finv ps : forall w, Forall (fun p => ~ reassigns p) ps -> Finv (w_heap w) -> Finv (w_heap (fst (run w ps))).
Proof.
  induction ps as [|p ps IH]; intros w F H; [exact H|]. rewrite run_cons. inversion F; subst. apply IH; [assumption|]. now apply step_Finv.
Qed.

(** ** the geometry slots *)
Definition slot (r : rt1) (a : angle) (e : expr) : Prop :=
  e = ang_sym a /\ existsb (angle_eqb a) (r_fixed r) = false \/
  exists q, e = ENum q /\ r_ang r a = Some (PNum (Fin (Q2R q))) /\ existsb (angle_eqb a) (r_fixed r) = true.
Definition geom_ok (r : rt1) : Prop :=
  if r_mono r then exists e, r_geom r = mk_angs (ang_sym T0) (ang_sym T0) e e /\ slot r P0 e
  else slot r T0 (g_t0 (r_geom r)) /\ slot r TEx (g_tex (r_geom r)) /\ slot r P0 (g_p0 (r_geom r)) /\ slot r PEx (g_pex (r_geom r)).
Definition Ginv (h : heap) : Prop := forall o r, obj h o = Ok r -> geom_ok r.
Lemma slot_same r r' a e : r_ang r' a = r_ang r a -> existsb (angle_eqb a) (r_fixed r') = existsb (angle_eqb a) (r_fixed r) ->
  slot r a e -> slot r' a e.
Proof. intros A B. unfold slot. rewrite A, B. auto. Qed.
Lemma geom_ok_same r r' : r_mono r' = r_mono r -> r_geom r' = r_geom r -> r_fixed r' = r_fixed r ->
  (forall a, existsb (angle_eqb a) (r_fixed r) = true -> r_ang r' a = r_ang r a) -> geom_ok r -> geom_ok r'.
Proof.
  intros A B C D. assert (S : forall a e, slot r a e -> slot r' a e).
  { intros a e [[H H']|(q & H1 & H2 & H3)]; [left; now rewrite C|right]. exists q. rewrite C, (D a H3). auto. }
  unfold geom_ok. rewrite A, B. destruct (r_mono r).
  - intros (e & H1 & H2). exists e. auto.
  - intros (H1 & H2 & H3 & H4). auto.
Qed.
Lemma geo_loop_same akw : forall r, let r' := fst (geo_loop akw r) in
  r_mono r' = r_mono r /\ r_geom r' = r_geom r /\ r_fixed r' = r_fixed r /\
  (forall a, existsb (angle_eqb a) (r_fixed r) = true -> r_ang r' a = r_ang r a).
Proof.
  induction akw as [|[a v] akw IH]; intros r; [repeat split; auto|]. cbn [geo_loop].
  destruct (existsb (angle_eqb a) (r_fixed r)) eqn:E; [repeat split; auto|]. destruct v as [v|]; [|repeat split; auto].
  destruct (IH (with_ang r a v)) as (A & B & C & D). cbn in A, B, C. cbv zeta. rewrite A, B, C. repeat split; auto.
  intros b Hb. rewrite (D b Hb). cbn [r_ang with_ang]. destruct (angle_eqb a b) eqn:Eb; [|reflexivity].
  apply angle_eqb_eq in Eb. subst. congruence.
Qed.
Lemma geo_rec_geom_ok kw r : geom_ok r -> geom_ok (fst (geo_rec kw r)).
Proof.
  intros H. unfold geo_rec. destruct (ang_kw kw) as [akw|]; [|exact H]. destruct (_ && _); [exact H|].
  destruct (geo_loop_same akw r) as (A & B & C & D). eapply geom_ok_same; eauto.
Qed.
Lemma slot_fix r a q : r_ang r a = Some (PNum (Fin (Q2R q))) -> existsb (angle_eqb a) (r_fixed r) = true -> slot r a (ENum q).
Proof. intros A B. right. exists q. auto. Qed.
Lemma slot_sym r a : existsb (angle_eqb a) (r_fixed r) = false -> slot r a (ang_sym a). Proof. now left. Qed.
Lemma geom_ok_mono r e : r_mono r = true -> r_geom r = mk_angs (ang_sym T0) (ang_sym T0) e e -> slot r P0 e -> geom_ok r.
Proof. intros A B C. unfold geom_ok. rewrite A. eauto. Qed.
Lemma geom_ok_bi r a b c d : r_mono r = false -> r_geom r = mk_angs a b c d -> slot r T0 a -> slot r TEx b -> slot r P0 c -> slot r PEx d -> geom_ok r.
Proof. intros A B. unfold geom_ok. rewrite A, B. auto. Qed.
Lemma mono_rec_geom_ok p r : p <> Some FBad -> geom_ok (fst (mono_rec p r)).
Proof.
  intros N. destruct p as [[q|]|]; [|congruence|].
  - apply (geom_ok_mono _ (ENum q)); [reflexivity..|]. apply slot_fix; reflexivity.
  - apply (geom_ok_mono _ (ang_sym P0)); [reflexivity..|]. apply slot_sym. reflexivity.
Qed.
(** fixing one angle *)
Definition bi_expr (a : angle) (v : option fixarg) : expr := match v with Some (FNum q) => ENum q | _ => ang_sym a end.
Lemma bi_step_slot a v r : v <> Some FBad -> existsb (angle_eqb a) (r_fixed r) = false ->
  exists r', bi_step a v r = (r', Ok (bi_expr a v)) /\ slot r' a (bi_expr a v) /\ r_mono r' = r_mono r /\ (forall b e, b <> a -> slot r b e -> slot r' b e) /\
    (forall b, b <> a -> existsb (angle_eqb b) (r_fixed r') = existsb (angle_eqb b) (r_fixed r)).
Proof.
  intros N Nf. destruct v as [[q|]|]; [|congruence|]; cbn [bi_step bi_expr]; eexists; (split; [reflexivity|]).
  - split; [|split; [reflexivity|split]].
    + apply slot_fix; cbn [r_ang with_fixed with_ang r_fixed existsb]; rewrite angle_eqb_refl; reflexivity.
    + intros b e Hb. apply slot_same; cbn [r_ang with_fixed with_ang r_fixed existsb].
      * destruct (angle_eqb a b) eqn:E; [apply angle_eqb_eq in E; congruence|reflexivity].
      * destruct (angle_eqb b a) eqn:E; [apply angle_eqb_eq in E; congruence|reflexivity].
    + intros b Hb. cbn [r_fixed with_fixed existsb]. destruct (angle_eqb b a) eqn:E; [apply angle_eqb_eq in E; congruence|reflexivity].
  - split; [now apply slot_sym|]. split; [reflexivity|auto].
Qed.
Lemma bi_rec_geom_ok a b c d r : a <> Some FBad -> b <> Some FBad -> c <> Some FBad -> d <> Some FBad ->
  geom_ok (fst (bi_rec a b c d r)).
Proof.
  intros Ha Hb Hc Hd. unfold bi_rec, seqf.
  destruct (bi_step_slot T0 a (reset false r) Ha) as (r1 & -> & S1 & M1 & _ & L1); [reflexivity|].
  destruct (bi_step_slot TEx b r1 Hb) as (r2 & -> & S2 & M2 & K2 & L2); [now rewrite L1|].
  destruct (bi_step_slot P0 c r2 Hc) as (r3 & -> & S3 & M3 & K3 & L3); [now rewrite L2, L1|].
  destruct (bi_step_slot PEx d r3 Hd) as (r4 & -> & S4 & M4 & K4 & _); [now rewrite L3, L2, L1|].
  apply K2 in S1; [|discriminate]. apply K3 in S1; [|discriminate]. apply K4 in S1; [|discriminate].
  apply K3 in S2; [|discriminate]. apply K4 in S2; [|discriminate]. apply K4 in S3; [|discriminate].
  eapply geom_ok_bi; cbn [fst r_mono with_geom r_geom]; [|reflexivity|eapply slot_same; [| |eassumption]; reflexivity..].
  rewrite M4, M3, M2, M1. reflexivity.
Qed.
(** every value a call fixes an angle to is a number *)
Definition num_arg (p : op) : Prop :=
  match p with
  | OSetMono _ p0 => p0 <> Some FBad
  | OSetBi _ a b c d => a <> Some FBad /\ b <> Some FBad /\ c <> Some FBad /\ d <> Some FBad
  | _ => True
  end.
Lemma geom_ok_strip r r' : strip r' = strip r -> geom_ok r -> geom_ok r'.
Proof.
  intros E. apply geom_ok_same; try (now injection E). intros a _. injection E. congruence.
Qed.
Lemma step_obj_geom_ok p i r : num_arg p -> geom_ok r -> geom_ok (step_obj p i r).
Proof.
  intros N H. destruct p; cbn [step_obj]; try exact H; destruct (o =? i); try exact H.
  - now apply geo_rec_geom_ok.
  - now apply mono_rec_geom_ok.
  - destruct N as (? & ? & ? & ?). now apply bi_rec_geom_ok.
Qed.
Lemma copy_geom_ok h h' r r' : copy_of h h' r r' -> geom_ok r -> geom_ok r'.
Proof.
  intros (_ & _ & _ & _ & _ & C6 & _ & _ & _ & _ & _ & C12 & C13 & C14 & _).
  assert (S : forall a e, slot r a e -> slot r' a e).
  { intros a e [[H H']|(q & H1 & H2 & H3)]; [left; now rewrite C12|right]. exists q. rewrite C12. split; [assumption|]. split; [|assumption].
    specialize (C6 a). rewrite H2 in C6. unfold copied_o in C6. destruct (r_ang r' a) as [[x|]|]; try (destruct C6 as [_ []]); try destruct C6.
    now subst. }
  unfold geom_ok. rewrite C13, C14. destruct (r_mono r).
  - intros (e & H1 & H2). exists e. auto.
  - intros (H1 & H2 & H3 & H4). auto.
Qed.
Theorem step_Ginv w p : num_arg p -> Ginv (w_heap w) -> Ginv (w_heap (fst (step w p))).
Proof.
  intros N H o r Ho.
  destruct (Nat.ltb_spec o (length (h_objs (w_heap w)))) as [L|L].
  - destruct (obj (w_heap w) o) as [r0|e] eqn:E0; [|exfalso; pose proof (proj1 (obj_err_len (w_heap w) o) (ex_intro _ e E0)); lia].
    destruct (step_obj_ex w p o r0 E0) as (r' & E' & St). assert (r' = r) by congruence. subst r'.
    apply (geom_ok_strip _ _ St). apply step_obj_geom_ok; [assumption|]. exact (H o r0 E0).
  - destruct (creates p) eqn:Cr.
    + destruct p; try discriminate Cr.
      * cbn [step] in Ho. rewrite fst_as_out in Ho. pose proof (new_objs V SRF iq sg db fi fe i0 w) as Nw.
        destruct (new_rt1 V SRF iq sg db fi fe i0 w) as [w' [n|e]]; cbn [fst] in Ho.
        -- destruct Nw as (v & s & _ & _ & _ & N1 & _). unfold obj in Ho. rewrite N1, nth_error_app2 in Ho by assumption.
           destruct (o - length (h_objs (w_heap w))) as [|[|k]]; simpl in Ho; try discriminate. inversion Ho; subst.
           now apply (mono_rec_geom_ok None).
        -- exfalso. assert (X : length (h_objs (w_heap w')) <= o) by (rewrite Nw; assumption). apply obj_err_len in X. destruct X. congruence.
      * cbn [step] in Ho. rewrite fst_as_out in Ho. destruct (obj (w_heap w) o0) as [r0|e] eqn:E0.
        2:{ rewrite (pickle_none _ _ _ E0) in Ho. exact (H o r Ho). }
        rewrite (pickle_eq _ _ _ E0) in Ho. set (w1 := fst (put_obj o0 (with_plots r0 false) w)) in *.
        assert (Hl : length (h_objs (w_heap w1)) = length (h_objs (w_heap w))) by apply list_set_length.
        pose proof (pickle_rest_spec (with_plots r0 false) w1) as S. destruct (pickle_rest (with_plots r0 false) w1) as [w' [n|e]]; cbn [fst] in Ho.
        -- destruct S as (_ & h' & r' & G & E' & C). rewrite E' in Ho. unfold obj in Ho. simpl in Ho.
           destruct G as (_ & _ & G & _). rewrite G, nth_error_app2, Hl in Ho by (rewrite Hl; assumption).
           destruct (o - length (h_objs (w_heap w))) as [|[|k]]; simpl in Ho; try discriminate. inversion Ho; subst.
           eapply copy_geom_ok; [exact C|]. exact (H o0 r0 E0).
        -- exfalso. destruct S as (_ & _ & S & _). assert (X : length (h_objs (w_heap w')) <= o) by (rewrite S, Hl; assumption). apply obj_err_len in X. destruct X. congruence.
    + exfalso. assert (X : length (h_objs (w_heap (fst (step w p)))) <= o) by (rewrite step_len; assumption).
      apply obj_err_len in X. destruct X. congruence.
Qed.
Lemma Ginv_init seng on : Ginv (w_heap (init seng on)).
Proof. intros o r H. unfold obj in H. simpl in H. destruct o; discriminate. Qed.
Lemma run_Ginv ps : forall w, Forall num_arg ps -> Ginv (w_heap w) -> Ginv (w_heap (fst (run w ps))).
Proof.
  induction ps as [|p ps IH]; intros w F H; [exact H|]. rewrite run_cons. inversion F; subst. apply IH; [assumption|]. now apply step_Ginv.
Qed.
