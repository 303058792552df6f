(** A call on one object leaves every other object exactly as it was. *)
From Verif Require Export Closed.
Open Scope string_scope.
Open Scope nat_scope.
Open Scope list_scope.

Definition objs_at (w : world) (i : nat) : option rt1 := nth_error (h_objs (w_heap w)) i.
Definition only {A} (o : nat) (m : M A) : Prop := forall w i, i <> o -> objs_at (fst (m w)) i = objs_at w i.

Lemma ol_ret {A} o (a : A) : only o (ret a). Proof. intros w i _; reflexivity. Qed.
Lemma ol_fail {A} o e : only o (@fail A e). Proof. intros w i _; reflexivity. Qed.
Lemma ol_lift {A} o (r : res A) : only o (lift r). Proof. intros w i _; reflexivity. Qed.
Lemma ol_gets {A} o (f : heap -> res A) : only o (gets f). Proof. intros w i _; reflexivity. Qed.
Lemma ol_bind {A B} o (m : M A) (k : A -> M B) : only o m -> (forall a, only o (k a)) -> only o (bind m k).
Proof.
  intros Hm Hk w i Hi. unfold bind. specialize (Hm w i Hi). destruct (m w) as [w' [a|e]]; cbn [fst] in *; [|exact Hm].
  rewrite Hk by assumption. exact Hm.
Qed.
Lemma ol_catch {A} o (m : M A) (k : exn -> M A) : only o m -> (forall a, only o (k a)) -> only o (catch m k).
Proof.
  intros Hm Hk w i Hi. unfold catch. specialize (Hm w i Hi). destruct (m w) as [w' [a|e]]; cbn [fst] in *; [exact Hm|].
  rewrite Hk by assumption. exact Hm.
Qed.
Lemma ol_cached o n k m : only o m -> only o (cached n k m).
Proof.
  intros Hm w i Hi. unfold cached. destruct (w_on w); [|now apply Hm].
  destruct (lru_get (w_caches w n) k); [reflexivity|].
  specialize (Hm w i Hi). destruct (m w) as [w' [a|e]]; exact Hm.
Qed.
Lemma ol_cache_clear o n : only o (cache_clear n). Proof. intros w i _; reflexivity. Qed.
Lemma ol_put o r : only o (put_obj o r).
Proof.
  intros w i Hi. unfold objs_at, put_obj. cbn [fst w_heap set_heap set_objs h_objs]. rewrite nth_error_list_set.
  destruct (Nat.eqb_spec o i); [congruence|reflexivity].
Qed.
Create HintDb ol.
#[export] Hint Resolve ol_ret ol_fail ol_lift ol_gets ol_cache_clear ol_put : ol.
Ltac olgo :=
  repeat first
    [ match goal with |- forall _, _ => intro end
    | solve [auto with ol]
    | match goal with
      | |- only _ (bind _ _) => apply ol_bind
      | |- only _ (catch _ _) => apply ol_catch
      | |- only _ (cached _ _ _) => apply ol_cached
      | |- only _ (let '(_, _) := ?p in _) => destruct p
      | |- only _ (match ?x with _ => _ end) => destruct x
      | |- only _ (if ?x then _ else _) => destruct x
      end ].

Lemma ol_get_obj o : only o (get_obj o). Proof. apply ol_gets. Qed.
Lemma ol_m_ang o a : only o (m_ang o a). Proof. apply ol_gets. Qed.
Lemma ol_nmax o : only o (m_nmax o). Proof. apply ol_gets. Qed.
Lemma ol_get_I0 o : only o (get_I0 o). Proof. apply ol_gets. Qed.
#[export] Hint Resolve ol_get_obj ol_m_ang ol_nmax ol_get_I0 : ol.
Lemma ol_mu_0 o : only o (mu_0 o). Proof. unfold mu_0. olgo. Qed.
Lemma ol_mu_ex o : only o (mu_ex o). Proof. unfold mu_ex. olgo. Qed.
#[export] Hint Resolve ol_mu_0 ol_mu_ex : ol.
Lemma ol_mu_0_x o : only o (mu_0_x o). Proof. unfold mu_0_x. olgo. Qed.
Lemma ol_mu_ex_x o : only o (mu_ex_x o). Proof. unfold mu_ex_x. olgo. Qed.
Lemma ol_symbs o p : only o (get_param_symbs o p). Proof. unfold get_param_symbs. olgo. Qed.
#[export] Hint Resolve ol_mu_0_x ol_mu_ex_x ol_symbs : ol.
Lemma ol_funcs o p : only o (get_param_funcs o p). Proof. unfold get_param_funcs. olgo. Qed.
#[export] Hint Resolve ol_funcs : ol.
Lemma ol_eval_param o p : only o (eval_param o p). Proof. unfold eval_param. olgo. Qed.
#[export] Hint Resolve ol_eval_param : ol.
Lemma ol_param_val o p : only o (param_val o p). Proof. unfold param_val. olgo. Qed.
Lemma ol_lambda o sid keys : only o (lambda_func sid keys). Proof. unfold lambda_func. olgo. Qed.
#[export] Hint Resolve ol_param_val ol_lambda : ol.
Lemma ol_scat_calc o sid a b c d kw : only o (scat_calc sid a b c d kw). Proof. unfold scat_calc. olgo. Qed.
#[export] Hint Resolve ol_scat_calc : ol.
Lemma ol_obj_scat_calc o x : only o (obj_scat_calc o x). Proof. unfold obj_scat_calc. olgo. Qed.
#[export] Hint Resolve ol_obj_scat_calc : ol.
Lemma ol_surface o : only o (m_surface o). Proof. unfold m_surface. olgo. Qed.
Lemma ol_volume o : only o (m_volume o). Proof. unfold m_volume. olgo. Qed.
Lemma ol_convert o v : only o (m_convert o v). Proof. unfold m_convert. olgo. Qed.
Lemma ol_all_param_symbs o : only o (all_param_symbs o). Proof. unfold all_param_symbs. olgo. Qed.
#[export] Hint Resolve ol_surface ol_volume ol_convert ol_all_param_symbs : ol.

Lemma ol_m_fn o : only o (m_fn o). Proof. unfold m_fn. olgo. Qed.
#[export] Hint Resolve ol_m_fn : ol.
Lemma ol_m_fnevals o : only o (m_fnevals o). Proof. unfold m_fnevals. olgo. Qed.
#[export] Hint Resolve ol_m_fnevals : ol.
Lemma ol_m_Fint o b : only o (m_Fint o b). Proof. unfold m_Fint. olgo. Qed.
#[export] Hint Resolve ol_m_Fint : ol.
Lemma ol_interaction o : only o (m_interaction o). Proof. unfold m_interaction. olgo. Qed.
#[export] Hint Resolve ol_interaction : ol.
Lemma ol_calc_body o : only o (m_calc_body o). Proof. unfold m_calc_body. olgo. Qed.
#[export] Hint Resolve ol_calc_body : ol.

Lemma ol_lambdify_diff o d : only o (lambdify_diff o d). Proof. unfold lambdify_diff. olgo. Qed.
#[export] Hint Resolve ol_lambdify_diff : ol.
Lemma ol_dlam o x key : only o (d_dummy_lambda o x key). Proof. unfold d_dummy_lambda. olgo. Qed.
Lemma ol_call_full o c : only o (call_full o c). Proof. unfold call_full. olgo. Qed.
Lemma ol_dparam o p k : only o (dparam_ddummy_lambda o p k). Proof. unfold dparam_ddummy_lambda. olgo. Qed.
#[export] Hint Resolve ol_dlam ol_call_full ol_dparam : ol.
Lemma ol_dvolume_dtau o : only o (dvolume_dtau o). Proof. unfold dvolume_dtau. olgo. Qed.
Lemma ol_dvolume_domega o : only o (dvolume_domega o). Proof. unfold dvolume_domega. olgo. Qed.
Lemma ol_dvolume_dbsf o : only o (dvolume_dbsf o). Proof. unfold dvolume_dbsf. olgo. Qed.
Lemma ol_dvolume_dN o : only o (dvolume_dNormBRDF o). Proof. unfold dvolume_dNormBRDF. olgo. Qed.
Lemma ol_dsurface_dtau o : only o (dsurface_dtau o). Proof. unfold dsurface_dtau. olgo. Qed.
Lemma ol_dsurface_domega o : only o (dsurface_domega o). Proof. unfold dsurface_domega. olgo. Qed.
Lemma ol_dsurface_dbsf o : only o (dsurface_dbsf o). Proof. unfold dsurface_dbsf. olgo. Qed.
Lemma ol_dsurface_dN o : only o (dsurface_dNormBRDF o). Proof. unfold dsurface_dNormBRDF. olgo. Qed.
#[export] Hint Resolve ol_dvolume_dtau ol_dvolume_domega ol_dvolume_dbsf ol_dvolume_dN
  ol_dsurface_dtau ol_dsurface_domega ol_dsurface_dbsf ol_dsurface_dN : ol.
Lemma ol_d_volume o k : only o (d_volume_ddummy o k). Proof. unfold d_volume_ddummy. olgo. Qed.
Lemma ol_d_surface o k : only o (d_surface_ddummy o k). Proof. unfold d_surface_ddummy. olgo. Qed.
Lemma ol_jac_norm o : only o (jac_norm o). Proof. unfold jac_norm. olgo. Qed.
#[export] Hint Resolve ol_d_volume ol_d_surface ol_jac_norm : ol.
Lemma ol_jac_entry o n k : only o (jac_entry o n k). Proof. unfold jac_entry. olgo. Qed.
#[export] Hint Resolve ol_jac_entry : ol.
Lemma ol_jac_entries o n ks : only o (jac_entries o n ks).
Proof. induction ks as [|k ks IH]; simpl; olgo. Qed.
#[export] Hint Resolve ol_jac_entries : ol.
Lemma ol_jacobian o ks f : only o (api_jacobian o ks f). Proof. unfold api_jacobian. olgo. Qed.
Lemma ol_clear_geom o : only o clear_geom_cache. Proof. unfold clear_geom_cache. olgo. Qed.
Lemma ol_clear_param o : only o clear_param_cache. Proof. unfold clear_param_cache. olgo. Qed.
#[export] Hint Resolve ol_jacobian ol_clear_geom ol_clear_param : ol.

Lemma ol_update o kw : only o (update_params o kw). Proof. unfold update_params. olgo. Qed.
#[export] Hint Resolve ol_update : ol.
Lemma ol_bi_step o a v : only o (bistatic_step o a v). Proof. unfold bistatic_step. olgo. Qed.
#[export] Hint Resolve ol_bi_step : ol.
Lemma ol_mono o p : only o (set_monostatic o p). Proof. unfold set_monostatic. olgo. Qed.
Lemma ol_bi o a b c d : only o (set_bistatic o a b c d). Proof. unfold set_bistatic. olgo. Qed.
Lemma ol_loop o kw : only o (set_geometry_loop o kw).
Proof. induction kw as [|[a v] kw IH]; cbn [set_geometry_loop]; olgo. Qed.
#[export] Hint Resolve ol_loop : ol.
Lemma ol_geo o kw : only o (set_geometry o kw). Proof. unfold set_geometry. olgo. Qed.
Lemma ol_calc o kw : only o (m_calc o kw). Proof. unfold m_calc. olgo. Qed.
Lemma ol_api_s o kw : only o (api_surface o kw). Proof. unfold api_surface. olgo. Qed.
Lemma ol_api_v o kw : only o (api_volume o kw). Proof. unfold api_volume. olgo. Qed.
Lemma ol_api_i o kw : only o (api_interaction o kw). Proof. unfold api_interaction. olgo. Qed.
#[export] Hint Resolve ol_mono ol_bi ol_geo ol_calc ol_api_s ol_api_v ol_api_i : ol.

Lemma step_others w p i : i < length (h_objs (w_heap w)) -> target p <> Some i -> objs_at (fst (step w p)) i = objs_at w i.
Proof.
  intros Hi Ht. destruct p; cbn [target] in Ht; cbn [step]; rewrite fst_as_out.
  - reflexivity.
  - reflexivity.
  - pose proof (new_objs V SRF iq sg db fi fe i0 w) as Hn.
    destruct (new_rt1 V SRF iq sg db fi fe i0 w) as [w' [n|e]]; unfold objs_at; cbn [fst].
    + destruct Hn as (v & s & _ & _ & _ & -> & _). now rewrite nth_error_app1.
    + now rewrite Hn.
  - apply ol_geo; congruence.
  - apply ol_mono; congruence.
  - apply ol_bi; congruence.
  - apply ol_update; congruence.
  - assert (X : only o (set_def o p d)) by (unfold set_def; olgo). apply X; congruence.
  - assert (X : only o (do r <- get_obj o;; put_obj o (with_flags r iq sg db))) by olgo. apply X; congruence.
  - assert (X : only o (do r <- get_obj o;; put_obj o (with_I0 r v))) by olgo. apply X; congruence.
  - assert (X : only o (do r <- get_obj o;; put_obj o (with_V r s))) by olgo. apply X; congruence.
  - assert (X : only o (do r <- get_obj o;; put_obj o (with_SRF r s))) by olgo. apply X; congruence.
  - apply (ol_m_ang o); congruence.
  - apply (ol_param_val o); congruence.
  - apply (ol_calc o); congruence.
  - apply (ol_api_s o); congruence.
  - apply (ol_api_v o); congruence.
  - apply (ol_api_i o); congruence.
  - apply (ol_jacobian o); congruence.
  - eapply (ol_scat_calc (S i)). lia.
  - destruct (obj (w_heap w) o) as [r|e] eqn:Eo; [|now rewrite (pickle_none _ _ _ Eo)].
    rewrite (pickle_eq _ _ _ Eo). set (w1 := fst (put_obj o (with_plots r false) w)).
    assert (E1 : objs_at w1 i = objs_at w i) by (apply ol_put; congruence).
    pose proof (pickle_rest_spec (with_plots r false) w1) as Hp. rewrite <- E1.
    assert (L1 : i < length (h_objs (w_heap w1))) by (unfold w1; rewrite w_heap_put; unfold hput; cbn [set_objs h_objs]; now rewrite list_set_length).
    destruct (pickle_rest (with_plots r false) w1) as [w' [n|x]]; unfold objs_at; cbn [fst].
    + destruct Hp as (_ & h' & rn & (_ & _ & G & _) & -> & _). cbn [set_objs h_objs]. rewrite G. now rewrite nth_error_app1.
    + destruct Hp as (_ & _ & G & _). now rewrite G.
  - assert (X : only o (analyze_callable o)) by (unfold analyze_callable; olgo). apply X; congruence.
  - unfold set_lambda_backend. destruct (backend_of_str s); reflexivity.
  - unfold mutate. destruct (nth_error (h_arrs (w_heap w)) aid); reflexivity.
  - reflexivity.
  - reflexivity.
  - apply (ol_all_param_symbs o); congruence.
  - assert (X : only o (do _ <- get_obj o ;;
      cache_clear CMu0 ;;; cache_clear CMu0x ;;; cache_clear CMuEx ;;; cache_clear CMuExx ;;;
      cache_clear CPFuncs ;;; cache_clear CPSymbs ;;; cache_clear CDVol ;;; cache_clear CDSrf)) by olgo.
    apply X; congruence.
Qed.
