(** Frame facts: evaluating never changes anything but the memoised fn-expressions
    (_fn_, _fnevals_) and the caches. *)
From Verif Require Export Machine.
Open Scope nat_scope.

(** an object without its memoised fn expressions/functions *)
Definition strip (r : rt1) : rt1 := with_fnev (with_fn r None) None.
Definition hstrip (h : heap) : heap :=
  mk_heap (h_be h) (h_seng h) (h_arrs h) (h_scats h) (map strip (h_objs h)).

Definition frame {A} (m : M A) : Prop := forall w, hstrip (w_heap (fst (m w))) = hstrip (w_heap w).

Lemma fr_ret {A} (a : A) : frame (ret a). Proof. intros w; reflexivity. Qed.
Lemma fr_fail {A} e : frame (@fail A e). Proof. intros w; reflexivity. Qed.
Lemma fr_lift {A} (r : res A) : frame (lift r). Proof. intros w; reflexivity. Qed.
Lemma fr_gets {A} (f : heap -> res A) : frame (gets f). Proof. intros w; reflexivity. Qed.
Lemma fr_bind {A B} (m : M A) (k : A -> M B) : frame m -> (forall a, frame (k a)) -> frame (bind m k).
Proof.
  intros Hm Hk w. unfold bind. specialize (Hm w). destruct (m w) as [w' [a|e]]; simpl in *; [|exact Hm].
  rewrite Hk. exact Hm.
Qed.
Lemma fr_catch {A} (m : M A) (k : exn -> M A) : frame m -> (forall a, frame (k a)) -> frame (catch m k).
Proof.
  intros Hm Hk w. unfold catch. specialize (Hm w). destruct (m w) as [w' [a|e]]; simpl in *; [exact Hm|].
  rewrite Hk. exact Hm.
Qed.
Lemma fr_cached n k m : frame m -> frame (cached n k m).
Proof.
  intros Hm w. unfold cached. destruct (w_on w); [|apply Hm].
  destruct (lru_get (w_caches w n) k); [reflexivity|].
  specialize (Hm w). destruct (m w) as [w' [a|e]]; exact Hm.
Qed.
Lemma fr_cache_clear n : frame (cache_clear n). Proof. intros w; reflexivity. Qed.

Lemma list_set_map {A B} (f : A -> B) l i x y :
  nth_error l i = Some y -> f x = f y -> map f (list_set l i x) = map f l.
Proof.
  revert i. induction l as [|z l IH]; intros [|i] Hn Hf; simpl in *; try congruence.
  f_equal. apply IH; assumption.
Qed.

Lemma fr_put_strip o (f : rt1 -> rt1) :
  (forall r, strip (f r) = strip r) -> frame (do r <- get_obj o ;; put_obj o (f r)).
Proof.
  intros Hf w. unfold bind, get_obj, gets, obj.
  destruct (nth_error (h_objs (w_heap w)) o) as [r|] eqn:E; [|reflexivity].
  simpl. unfold hstrip; simpl. f_equal. eapply list_set_map; eauto.
Qed.

Create HintDb fr.
#[export] Hint Resolve fr_ret fr_fail fr_lift fr_gets fr_cache_clear : fr.
Ltac frgo :=
  repeat first
    [ progress (intros)
    | solve [auto with fr]
    | apply fr_bind
    | apply fr_catch
    | apply fr_cached
    | match goal with
      | |- frame (let '(_, _) := ?p in _) => destruct p
      | |- frame (match ?x with _ => _ end) => destruct x
      | |- frame (if ?x then _ else _) => destruct x
      end ].

Lemma fr_get_obj o : frame (get_obj o). Proof. apply fr_gets. Qed.
Lemma fr_m_ang o a : frame (m_ang o a). Proof. apply fr_gets. Qed.
Lemma fr_nmax o : frame (m_nmax o). Proof. apply fr_gets. Qed.
Lemma fr_get_I0 o : frame (get_I0 o). Proof. apply fr_gets. Qed.
#[export] Hint Resolve fr_get_obj fr_m_ang fr_nmax fr_get_I0 : fr.
Lemma fr_mu_0 o : frame (mu_0 o). Proof. unfold mu_0. frgo. Qed.
Lemma fr_mu_ex o : frame (mu_ex o). Proof. unfold mu_ex. frgo. Qed.
#[export] Hint Resolve fr_mu_0 fr_mu_ex : fr.
Lemma fr_mu_0_x o : frame (mu_0_x o). Proof. unfold mu_0_x. frgo. Qed.
Lemma fr_mu_ex_x o : frame (mu_ex_x o). Proof. unfold mu_ex_x. frgo. Qed.
Lemma fr_symbs o p : frame (get_param_symbs o p). Proof. unfold get_param_symbs. frgo. Qed.
#[export] Hint Resolve fr_mu_0_x fr_mu_ex_x fr_symbs : fr.
Lemma fr_funcs o p : frame (get_param_funcs o p). Proof. unfold get_param_funcs. frgo. Qed.
#[export] Hint Resolve fr_funcs : fr.
Lemma fr_eval_param o p : frame (eval_param o p). Proof. unfold eval_param. frgo. Qed.
#[export] Hint Resolve fr_eval_param : fr.
Lemma fr_param_val o p : frame (param_val o p). Proof. unfold param_val. frgo. Qed.
Lemma fr_lambda sid keys : frame (lambda_func sid keys). Proof. unfold lambda_func. frgo. Qed.
#[export] Hint Resolve fr_param_val fr_lambda : fr.
Lemma fr_scat_calc sid a b c d kw : frame (scat_calc sid a b c d kw). Proof. unfold scat_calc. frgo. Qed.
#[export] Hint Resolve fr_scat_calc : fr.
Lemma fr_obj_scat_calc o x : frame (obj_scat_calc o x). Proof. unfold obj_scat_calc. frgo. Qed.
#[export] Hint Resolve fr_obj_scat_calc : fr.
Lemma fr_surface o : frame (m_surface o). Proof. unfold m_surface. frgo. Qed.
Lemma fr_volume o : frame (m_volume o). Proof. unfold m_volume. frgo. Qed.
Lemma fr_convert o v : frame (m_convert o v). Proof. unfold m_convert. frgo. Qed.
Lemma fr_all_param_symbs o : frame (all_param_symbs o). Proof. unfold all_param_symbs. frgo. Qed.
#[export] Hint Resolve fr_surface fr_volume fr_convert fr_all_param_symbs : fr.

Lemma fr_m_fn o : frame (m_fn o).
Proof.
  intros w. unfold m_fn, bind, get_obj, gets, obj.
  destruct (nth_error (h_objs (w_heap w)) o) as [r|] eqn:E; [|reflexivity]. simpl.
  destruct (r_fn r); [reflexivity|]. destruct (r_fn_input r); [reflexivity|].
  destruct (r_intQ r); [|reflexivity].
  match goal with |- context [match ?x with Ok _ => _ | Err _ => _ end] => destruct x as [f|e] end; [|reflexivity].
  simpl. unfold hstrip; simpl. f_equal. eapply list_set_map; eauto.
Qed.
#[export] Hint Resolve fr_m_fn : fr.
Lemma fr_m_fnevals o : frame (m_fnevals o).
Proof.
  unfold m_fnevals. apply fr_bind; [frgo|intros r].
  destruct (r_fnev r); [frgo|]. destruct (r_fnevals_input r); [frgo|]. destruct (r_intQ r); [|frgo].
  apply fr_bind; [frgo|intros [es|]; [|frgo]]. apply fr_bind; [frgo|intros c].
  intros w. unfold bind, get_obj, gets, obj.
  destruct (nth_error (h_objs (w_heap w)) o) as [r'|] eqn:E; [|reflexivity]. simpl.
  unfold hstrip; simpl. f_equal. eapply list_set_map; eauto.
Qed.
#[export] Hint Resolve fr_m_fnevals : fr.
Lemma fr_m_Fint o b : frame (m_Fint o b). Proof. unfold m_Fint. frgo. Qed.
#[export] Hint Resolve fr_m_Fint : fr.
Lemma fr_interaction o : frame (m_interaction o). Proof. unfold m_interaction. frgo. Qed.
#[export] Hint Resolve fr_interaction : fr.
Lemma fr_calc_body o : frame (m_calc_body o). Proof. unfold m_calc_body. frgo. Qed.
#[export] Hint Resolve fr_calc_body : fr.

Lemma fr_lambdify_diff o d : frame (lambdify_diff o d). Proof. unfold lambdify_diff. frgo. Qed.
#[export] Hint Resolve fr_lambdify_diff : fr.
Lemma fr_dlam o x key : frame (d_dummy_lambda o x key). Proof. unfold d_dummy_lambda. frgo. Qed.
Lemma fr_call_full o c : frame (call_full o c). Proof. unfold call_full. frgo. Qed.
Lemma fr_dparam o p k : frame (dparam_ddummy_lambda o p k). Proof. unfold dparam_ddummy_lambda. frgo. Qed.
#[export] Hint Resolve fr_dlam fr_call_full fr_dparam : fr.
Lemma fr_dvolume_dtau o : frame (dvolume_dtau o). Proof. unfold dvolume_dtau. frgo. Qed.
Lemma fr_dvolume_domega o : frame (dvolume_domega o). Proof. unfold dvolume_domega. frgo. Qed.
Lemma fr_dvolume_dbsf o : frame (dvolume_dbsf o). Proof. unfold dvolume_dbsf. frgo. Qed.
Lemma fr_dvolume_dN o : frame (dvolume_dNormBRDF o). Proof. unfold dvolume_dNormBRDF. frgo. Qed.
Lemma fr_dsurface_dtau o : frame (dsurface_dtau o). Proof. unfold dsurface_dtau. frgo. Qed.
Lemma fr_dsurface_domega o : frame (dsurface_domega o). Proof. unfold dsurface_domega. frgo. Qed.
Lemma fr_dsurface_dbsf o : frame (dsurface_dbsf o). Proof. unfold dsurface_dbsf. frgo. Qed.
Lemma fr_dsurface_dN o : frame (dsurface_dNormBRDF o). Proof. unfold dsurface_dNormBRDF. frgo. Qed.
#[export] Hint Resolve fr_dvolume_dtau fr_dvolume_domega fr_dvolume_dbsf fr_dvolume_dN
  fr_dsurface_dtau fr_dsurface_domega fr_dsurface_dbsf fr_dsurface_dN : fr.
Lemma fr_d_volume o k : frame (d_volume_ddummy o k). Proof. unfold d_volume_ddummy. frgo. Qed.
Lemma fr_d_surface o k : frame (d_surface_ddummy o k). Proof. unfold d_surface_ddummy. frgo. Qed.
Lemma fr_jac_norm o : frame (jac_norm o). Proof. unfold jac_norm. frgo. Qed.
#[export] Hint Resolve fr_d_volume fr_d_surface fr_jac_norm : fr.
Lemma fr_jac_entry o n k : frame (jac_entry o n k). Proof. unfold jac_entry. frgo. Qed.
#[export] Hint Resolve fr_jac_entry : fr.
Lemma fr_jac_entries o n ks : frame (jac_entries o n ks).
Proof. induction ks as [|k ks IH]; simpl; frgo. Qed.
#[export] Hint Resolve fr_jac_entries : fr.
Lemma fr_jacobian o ks f : frame (api_jacobian o ks f). Proof. unfold api_jacobian. frgo. Qed.
Lemma fr_clear_geom : frame clear_geom_cache. Proof. unfold clear_geom_cache. frgo. Qed.
Lemma fr_clear_param : frame clear_param_cache. Proof. unfold clear_param_cache. frgo. Qed.
#[export] Hint Resolve fr_jacobian fr_clear_geom fr_clear_param : fr.
