(** Calls that change nothing: the heap stays and the result is a function of the heap.  (In the program
    without caches.) *)
From Verif Require Export Threads.
Open Scope string_scope.
Open Scope nat_scope.
Open Scope list_scope.

Definition stab {A} (h : heap) (m : M A) : Prop :=
  exists x, forall u, w_on u = false -> w_heap u = h -> w_on (fst (m u)) = false /\ w_heap (fst (m u)) = h /\ snd (m u) = x.
Section Stab.
  Context (h : heap).
  Lemma st_ret {A} (a : A) : stab h (ret a). Proof. exists (Ok a). auto. Qed.
  Lemma st_fail {A} e : stab h (@fail A e). Proof. exists (Err e). auto. Qed.
  Lemma st_lift {A} (x : res A) : stab h (lift x). Proof. exists x. auto. Qed.
  Lemma st_gets {A} (f : heap -> res A) : stab h (gets f). Proof. exists (f h). intros u H1 H2. cbn. rewrite H2. auto. Qed.
  Lemma st_bind {A B} (m : M A) (k : A -> M B) : stab h m -> (forall a, stab h (k a)) -> stab h (bind m k).
  Proof.
    intros [[a|e] Hm] Hk.
    - destruct (Hk a) as [y Hy]. exists y. intros u H1 H2. unfold bind. destruct (Hm u H1 H2) as (A1 & A2 & A3). destruct (m u) as [u1 z]. cbn [fst snd] in *. subst z. auto.
    - exists (Err e). intros u H1 H2. unfold bind. destruct (Hm u H1 H2) as (A1 & A2 & A3). destruct (m u) as [u1 z]. cbn [fst snd] in *. subst z. auto.
  Qed.
  Lemma st_catch {A} (m : M A) (k : exn -> M A) : stab h m -> (forall a, stab h (k a)) -> stab h (catch m k).
  Proof.
    intros [[a|e] Hm] Hk.
    - exists (Ok a). intros u H1 H2. unfold catch. destruct (Hm u H1 H2) as (A1 & A2 & A3). destruct (m u) as [u1 z]. cbn [fst snd] in *. subst z. auto.
    - destruct (Hk e) as [y Hy]. exists y. intros u H1 H2. unfold catch. destruct (Hm u H1 H2) as (A1 & A2 & A3). destruct (m u) as [u1 z]. cbn [fst snd] in *. subst z. auto.
  Qed.
  Lemma st_cached n k m : stab h m -> stab h (cached n k m).
  Proof. intros [x Hm]. exists x. intros u H1 H2. unfold cached. rewrite H1. now apply Hm. Qed.
  Lemma st_clear n : stab h (cache_clear n). Proof. exists (Ok tt). intros u H1 H2. auto. Qed.
  Lemma st_get_bind {B} o (k : rt1 -> M B) : (forall r, obj h o = Ok r -> stab h (k r)) -> stab h (bind (get_obj o) k).
  Proof.
    intros Hk. destruct (obj h o) as [r|e] eqn:E.
    - destruct (Hk r eq_refl) as [y Hy]. exists y. intros u H1 H2. unfold bind, get_obj, gets. rewrite H2, E. now apply Hy.
    - exists (Err e). intros u H1 H2. unfold bind, get_obj, gets. rewrite H2, E. auto.
  Qed.
End Stab.
Create HintDb st.
#[export] Hint Resolve st_ret st_fail st_lift st_clear st_gets : st.
Ltac stgo :=
  repeat first
    [ match goal with |- forall _, _ => intro end
    | solve [auto with st]
    | match goal with
      | |- stab _ (bind _ _) => apply st_bind
      | |- stab _ (catch _ _) => apply st_catch
      | |- stab _ (cached _ _ _) => apply st_cached
      | |- stab _ (let '(_, _) := ?p in _) => destruct p
      | |- stab _ (match ?x with _ => _ end) => destruct x
      | |- stab _ (if ?x then _ else _) => destruct x
      end ].

(** the interaction coefficients of [o] need not be computed any more *)
Definition quiet (h : heap) (o : nat) : Prop :=
  forall r, obj h o = Ok r -> r_fnev r <> None \/ r_fnevals_input r <> None \/ r_intQ r = false.
Lemma st_m_fnevals h o : quiet h o -> stab h (m_fnevals o).
Proof.
  intros Hq. unfold m_fnevals. apply st_get_bind. intros r Hr. specialize (Hq r Hr).
  destruct (r_fnev r); [stgo|]. destruct (r_fnevals_input r); [stgo|]. destruct (r_intQ r); [|stgo]. exfalso. intuition congruence.
Qed.
#[export] Hint Resolve st_m_fnevals : st.
(** update_params without arguments (bsf has its default already) *)
Lemma st_update h o : HB h -> stab h (update_params o []).
Proof.
  intros HBh. destruct (obj h o) as [r|e] eqn:E.
  - exists (Ok tt). intros u H1 H2. rewrite update_params_eq. unfold bind, get_obj, gets. rewrite H2, E.
    assert (U : upd_rec r [] = r).
    { assert (X : mem "bsf" (dkeys (r_params r)) = true) by (apply mem_In; exact (HBh o r E)).
      assert (K : upd_kw r [] = []).
      { unfold upd_kw. rewrite X. destruct (r_def r Bsf) as [[]|e|v]; try reflexivity. now rewrite andb_false_r. }
      unfold upd_rec. rewrite K. destruct r; reflexivity. }
    split; [exact H1|]. split; [|reflexivity]. unfold put_obj. cbn [fst w_heap set_heap]. rewrite H2.
    replace (list_set (h_objs h) o (upd_rec r [])) with (h_objs h); [destruct h; reflexivity|].
    apply obj_nth in E. rewrite U. clear - E. revert o E. generalize (h_objs h). induction l as [|x l IH]; intros [|o] E; cbn in *; try discriminate; [congruence|]. f_equal. now apply IH.
  - exists (Err e). intros u H1 H2. rewrite update_params_eq. unfold bind, get_obj, gets. rewrite H2, E. auto.
Qed.
Lemma st_get_obj h o : stab h (get_obj o). Proof. unfold get_obj. apply st_gets. Qed.
Lemma st_m_ang h o a : stab h (m_ang o a). Proof. unfold m_ang. apply st_gets. Qed.
Lemma st_nmax h o : stab h (m_nmax o). Proof. unfold m_nmax. apply st_gets. Qed.
Lemma st_get_I0 h o : stab h (get_I0 o). Proof. unfold get_I0. apply st_gets. Qed.
#[export] Hint Resolve st_get_obj st_m_ang st_nmax st_get_I0 : st.
Lemma st_mu_0 h o : stab h (mu_0 o). Proof. unfold mu_0. stgo. Qed.
Lemma st_mu_ex h o : stab h (mu_ex o). Proof. unfold mu_ex. stgo. Qed.
#[export] Hint Resolve st_mu_0 st_mu_ex : st.
Lemma st_mu_0_x h o : stab h (mu_0_x o). Proof. unfold mu_0_x. stgo. Qed.
Lemma st_mu_ex_x h o : stab h (mu_ex_x o). Proof. unfold mu_ex_x. stgo. Qed.
Lemma st_symbs h o p : stab h (get_param_symbs o p). Proof. unfold get_param_symbs. stgo. Qed.
#[export] Hint Resolve st_mu_0_x st_mu_ex_x st_symbs : st.
Lemma st_funcs h o p : stab h (get_param_funcs o p). Proof. unfold get_param_funcs. stgo. Qed.
#[export] Hint Resolve st_funcs : st.
Lemma st_eval_param h o p : stab h (eval_param o p). Proof. unfold eval_param. stgo. Qed.
#[export] Hint Resolve st_eval_param : st.
Lemma st_param_val h o p : stab h (param_val o p). Proof. unfold param_val. stgo. Qed.
Lemma st_lambda h sid keys : stab h (lambda_func sid keys). Proof. unfold lambda_func. stgo. Qed.
#[export] Hint Resolve st_param_val st_lambda : st.
Lemma st_scat_calc h sid a b c d kw : stab h (scat_calc sid a b c d kw). Proof. unfold scat_calc. stgo. Qed.
#[export] Hint Resolve st_scat_calc : st.
Lemma st_obj_scat_calc h o x : stab h (obj_scat_calc o x). Proof. unfold obj_scat_calc. stgo. Qed.
#[export] Hint Resolve st_obj_scat_calc : st.
Lemma st_surface h o : stab h (m_surface o). Proof. unfold m_surface. stgo. Qed.
Lemma st_volume h o : stab h (m_volume o). Proof. unfold m_volume. stgo. Qed.
Lemma st_convert h o v : stab h (m_convert o v). Proof. unfold m_convert. stgo. Qed.
Lemma st_all_param_symbs h o : stab h (all_param_symbs o). Proof. unfold all_param_symbs. stgo. Qed.
#[export] Hint Resolve st_surface st_volume st_convert st_all_param_symbs : st.
Lemma st_m_Fint h o b : quiet h o -> stab h (m_Fint o b). Proof. unfold m_Fint. stgo. Qed.
#[export] Hint Resolve st_m_Fint : st.
Lemma st_interaction h o : quiet h o -> stab h (m_interaction o). Proof. unfold m_interaction. stgo. Qed.
#[export] Hint Resolve st_interaction : st.
(** ** the Jacobian *)
Lemma st_lambdify_diff h o d : stab h (lambdify_diff o d). Proof. unfold lambdify_diff. stgo. Qed.
#[export] Hint Resolve st_lambdify_diff : st.
Lemma st_dlam h o x key : stab h (d_dummy_lambda o x key). Proof. unfold d_dummy_lambda. stgo. Qed.
Lemma st_call_full h o c : stab h (call_full o c). Proof. unfold call_full. stgo. Qed.
Lemma st_dparam h o p k : stab h (dparam_ddummy_lambda o p k). Proof. unfold dparam_ddummy_lambda. stgo. Qed.
#[export] Hint Resolve st_dlam st_call_full st_dparam : st.
Lemma st_dvolume_dtau h o : stab h (dvolume_dtau o). Proof. unfold dvolume_dtau. stgo. Qed.
Lemma st_dvolume_domega h o : stab h (dvolume_domega o). Proof. unfold dvolume_domega. stgo. Qed.
Lemma st_dvolume_dbsf h o : stab h (dvolume_dbsf o). Proof. unfold dvolume_dbsf. stgo. Qed.
Lemma st_dvolume_dN h o : stab h (dvolume_dNormBRDF o). Proof. unfold dvolume_dNormBRDF. stgo. Qed.
Lemma st_dsurface_dtau h o : stab h (dsurface_dtau o). Proof. unfold dsurface_dtau. stgo. Qed.
Lemma st_dsurface_domega h o : stab h (dsurface_domega o). Proof. unfold dsurface_domega. stgo. Qed.
Lemma st_dsurface_dbsf h o : stab h (dsurface_dbsf o). Proof. unfold dsurface_dbsf. stgo. Qed.
Lemma st_dsurface_dN h o : stab h (dsurface_dNormBRDF o). Proof. unfold dsurface_dNormBRDF. stgo. Qed.
#[export] Hint Resolve st_dvolume_dtau st_dvolume_domega st_dvolume_dbsf st_dvolume_dN st_dsurface_dtau st_dsurface_domega
  st_dsurface_dbsf st_dsurface_dN : st.
Lemma st_d_volume h o k : stab h (d_volume_ddummy o k). Proof. unfold d_volume_ddummy. stgo. Qed.
Lemma st_d_surface h o k : stab h (d_surface_ddummy o k). Proof. unfold d_surface_ddummy. stgo. Qed.
Lemma st_jac_norm h o : stab h (jac_norm o). Proof. unfold jac_norm. stgo. Qed.
#[export] Hint Resolve st_d_volume st_d_surface st_jac_norm : st.
Lemma st_jac_entry h o n k : stab h (jac_entry o n k). Proof. unfold jac_entry. stgo. Qed.
#[export] Hint Resolve st_jac_entry : st.

