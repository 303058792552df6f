(** What a call on one object reads and writes: its own record and the shared tables of arrays and
    scattering functions, never the record of another object.  (In the program without caches; Sim.v
    relates it to the program with caches.) *)
From Verif Require Export Interleave.
Open Scope string_scope.
Open Scope nat_scope.
Open Scope list_scope.

(** the heap without the records of the RT1 objects *)
Definition rest (h : heap) : heap := set_objs h [].
(** two worlds that may differ in every object but [o] *)
Definition L (h : heap) (o : nat) (u u' : world) : Prop :=
  w_on u = false /\ w_on u' = false /\ rest (w_heap u) = h /\ rest (w_heap u') = h /\ objs_at u o = objs_at u' o.
(** [m] does the same in both *)
Definition loc {A} (o : nat) (m : M A) : Prop :=
  forall h u u', L h o u u' -> L h o (fst (m u)) (fst (m u')) /\ snd (m u) = snd (m u').

Section Loc.
  Context (o : nat).
  Lemma lc_ret {A} (a : A) : loc o (ret a). Proof. intros h u u' H. split; [exact H|reflexivity]. Qed.
  Lemma lc_fail {A} e : loc o (@fail A e). Proof. intros h u u' H. split; [exact H|reflexivity]. Qed.
  Lemma lc_lift {A} (x : res A) : loc o (lift x). Proof. intros h u u' H. split; [exact H|reflexivity]. Qed.
  Lemma lc_bind {A B} (m : M A) (k : A -> M B) : loc o m -> (forall a, loc o (k a)) -> loc o (bind m k).
  Proof.
    intros Hm Hk h u u' H. unfold bind. destruct (Hm h u u' H) as [H1 E]. destruct (m u) as [u1 x], (m u') as [u1' x']. cbn [fst snd] in *. subst x'.
    destruct x; [now apply Hk|split; [exact H1|reflexivity]].
  Qed.
  Lemma lc_catch {A} (m : M A) (k : exn -> M A) : loc o m -> (forall a, loc o (k a)) -> loc o (catch m k).
  Proof.
    intros Hm Hk h u u' H. unfold catch. destruct (Hm h u u' H) as [H1 E]. destruct (m u) as [u1 x], (m u') as [u1' x']. cbn [fst snd] in *. subst x'.
    destruct x; [split; [exact H1|reflexivity]|now apply Hk].
  Qed.
  Lemma lc_cached n k m : loc o m -> loc o (cached n k m).
  Proof. intros Hm h u u' H. unfold cached. pose proof H as (-> & -> & _). now apply Hm. Qed.
  Lemma lc_clear n : loc o (cache_clear n).
  Proof. intros h u u' H. split; [exact H|reflexivity]. Qed.
  Lemma lc_gets {A} (f : heap -> res A) :
    (forall be se a s l l', nth_error l o = nth_error l' o -> f (mk_heap be se a s l) = f (mk_heap be se a s l')) -> loc o (gets f).
  Proof.
    intros Hf h u u' H. split; [exact H|]. destruct H as (_ & _ & H1 & H2 & H3). unfold gets. cbn [snd]. unfold objs_at in H3.
    destruct (w_heap u), (w_heap u'). unfold rest, set_objs in *. cbn in *. subst h. injection H2 as -> -> -> ->. now apply Hf.
  Qed.
  Lemma nth_set (l l' : list rt1) r : nth_error l o = nth_error l' o -> nth_error (list_set l o r) o = nth_error (list_set l' o r) o.
  Proof.
    intros E. rewrite !nth_error_list_set, E. destruct (o =? o); [|reflexivity].
    assert (o < length l <-> o < length l') by (rewrite <- !nth_error_Some, E; reflexivity).
    destruct (Nat.ltb_spec o (length l)), (Nat.ltb_spec o (length l')); try reflexivity; exfalso; lia.
  Qed.
  Lemma lc_put r : loc o (put_obj o r).
  Proof.
    intros h u u' (H1 & H2 & H3 & H4 & H5). split; [|reflexivity]. unfold put_obj, L, rest, objs_at in *. cbn [fst w_heap set_heap set_objs h_objs w_on] in *.
    repeat split; auto. now apply nth_set.
  Qed.
End Loc.
Create HintDb lc.
#[export] Hint Resolve lc_ret lc_fail lc_lift lc_clear lc_put : lc.
(** a function of the heap that looks up object [o] only *)
Ltac lcread :=
  apply lc_gets; intros ? ? ? ? ? ? Enth; cbv beta; unfold obj; cbn [h_objs]; rewrite <- ?Enth;
  unfold read_ang, params_nd, scat_at, sderef, deref; cbn [h_be h_seng h_arrs h_scats]; reflexivity.
Ltac lcgo :=
  repeat first
    [ match goal with |- forall _, _ => intro end
    | solve [auto with lc]
    | match goal with
      | |- loc _ (bind _ _) => apply lc_bind
      | |- loc _ (catch _ _) => apply lc_catch
      | |- loc _ (cached _ _ _) => apply lc_cached
      | |- loc _ (let '(_, _) := ?p in _) => destruct p
      | |- loc _ (match ?x with _ => _ end) => destruct x
      | |- loc _ (if ?x then _ else _) => destruct x
      | |- loc _ (let x := _ in _) => cbv zeta
      | |- loc _ (gets _) => solve [lcread]
      end ].

Lemma lc_get_obj o : loc o (get_obj o). Proof. unfold get_obj. lcread. Qed.
Lemma lc_m_ang o a : loc o (m_ang o a). Proof. unfold m_ang. lcread. Qed.
Lemma lc_nmax o : loc o (m_nmax o). Proof. unfold m_nmax. lcread. Qed.
Lemma lc_get_I0 o : loc o (get_I0 o). Proof. unfold get_I0. lcread. Qed.
#[export] Hint Resolve lc_get_obj lc_m_ang lc_nmax lc_get_I0 : lc.
Lemma lc_mu_0 o : loc o (mu_0 o). Proof. unfold mu_0. lcgo. Qed.
Lemma lc_mu_ex o : loc o (mu_ex o). Proof. unfold mu_ex. lcgo. Qed.
#[export] Hint Resolve lc_mu_0 lc_mu_ex : lc.
Lemma lc_mu_0_x o : loc o (mu_0_x o). Proof. unfold mu_0_x. lcgo. Qed.
Lemma lc_mu_ex_x o : loc o (mu_ex_x o). Proof. unfold mu_ex_x. lcgo. Qed.
Lemma lc_symbs o p : loc o (get_param_symbs o p). Proof. unfold get_param_symbs. lcgo. Qed.
#[export] Hint Resolve lc_mu_0_x lc_mu_ex_x lc_symbs : lc.
Lemma lc_funcs o p : loc o (get_param_funcs o p). Proof. unfold get_param_funcs. lcgo. Qed.
#[export] Hint Resolve lc_funcs : lc.
Lemma lc_eval_param o p : loc o (eval_param o p). Proof. unfold eval_param. lcgo. Qed.
#[export] Hint Resolve lc_eval_param : lc.
Lemma lc_param_val o p : loc o (param_val o p). Proof. unfold param_val. lcgo. Qed.
Lemma lc_lambda o sid keys : loc o (lambda_func sid keys). Proof. unfold lambda_func. lcgo. Qed.
#[export] Hint Resolve lc_param_val lc_lambda : lc.
Lemma lc_scat_calc o sid a b c d kw : loc o (scat_calc sid a b c d kw). Proof. unfold scat_calc. lcgo. Qed.
#[export] Hint Resolve lc_scat_calc : lc.
Lemma lc_params o r : loc o (gets (fun h => params_nd h r)). Proof. lcread. Qed.
#[export] Hint Resolve lc_params : lc.
Lemma lc_obj_scat_calc o x : loc o (obj_scat_calc o x). Proof. unfold obj_scat_calc. lcgo. Qed.
#[export] Hint Resolve lc_obj_scat_calc : lc.
Lemma lc_surface o : loc o (m_surface o). Proof. unfold m_surface. lcgo. Qed.
Lemma lc_volume o : loc o (m_volume o). Proof. unfold m_volume. lcgo. Qed.
Lemma lc_convert o v : loc o (m_convert o v). Proof. unfold m_convert. lcgo. Qed.
Lemma lc_all_param_symbs o : loc o (all_param_symbs o). Proof. unfold all_param_symbs. lcgo. Qed.
#[export] Hint Resolve lc_surface lc_volume lc_convert lc_all_param_symbs : lc.
Lemma lc_m_fn o : loc o (m_fn o). Proof. unfold m_fn. lcgo. Qed.
#[export] Hint Resolve lc_m_fn : lc.
Lemma lc_m_fnevals o : loc o (m_fnevals o). Proof. unfold m_fnevals. lcgo. Qed.
#[export] Hint Resolve lc_m_fnevals : lc.
Lemma lc_m_Fint o b : loc o (m_Fint o b). Proof. unfold m_Fint. lcgo. Qed.
#[export] Hint Resolve lc_m_Fint : lc.
Lemma lc_interaction o : loc o (m_interaction o). Proof. unfold m_interaction. lcgo. Qed.
#[export] Hint Resolve lc_interaction : lc.
Lemma lc_calc_body o : loc o (m_calc_body o). Proof. unfold m_calc_body. lcgo. Qed.
#[export] Hint Resolve lc_calc_body : lc.

(** ** the Jacobian *)
Lemma lc_lambdify_diff o d : loc o (lambdify_diff o d). Proof. unfold lambdify_diff. lcgo. Qed.
#[export] Hint Resolve lc_lambdify_diff : lc.
Lemma lc_dlam o x key : loc o (d_dummy_lambda o x key). Proof. unfold d_dummy_lambda. lcgo. Qed.
Lemma lc_call_full o c : loc o (call_full o c). Proof. unfold call_full. lcgo. Qed.
Lemma lc_dparam o p k : loc o (dparam_ddummy_lambda o p k). Proof. unfold dparam_ddummy_lambda. lcgo. Qed.
#[export] Hint Resolve lc_dlam lc_call_full lc_dparam : lc.
Lemma lc_dvolume_dtau o : loc o (dvolume_dtau o). Proof. unfold dvolume_dtau. lcgo. Qed.
Lemma lc_dvolume_domega o : loc o (dvolume_domega o). Proof. unfold dvolume_domega. lcgo. Qed.
Lemma lc_dvolume_dbsf o : loc o (dvolume_dbsf o). Proof. unfold dvolume_dbsf. lcgo. Qed.
Lemma lc_dvolume_dN o : loc o (dvolume_dNormBRDF o). Proof. unfold dvolume_dNormBRDF. lcgo. Qed.
Lemma lc_dsurface_dtau o : loc o (dsurface_dtau o). Proof. unfold dsurface_dtau. lcgo. Qed.
Lemma lc_dsurface_domega o : loc o (dsurface_domega o). Proof. unfold dsurface_domega. lcgo. Qed.
Lemma lc_dsurface_dbsf o : loc o (dsurface_dbsf o). Proof. unfold dsurface_dbsf. lcgo. Qed.
Lemma lc_dsurface_dN o : loc o (dsurface_dNormBRDF o). Proof. unfold dsurface_dNormBRDF. lcgo. Qed.
#[export] Hint Resolve lc_dvolume_dtau lc_dvolume_domega lc_dvolume_dbsf lc_dvolume_dN lc_dsurface_dtau lc_dsurface_domega
  lc_dsurface_dbsf lc_dsurface_dN : lc.
Lemma lc_d_volume o k : loc o (d_volume_ddummy o k). Proof. unfold d_volume_ddummy. lcgo. Qed.
Lemma lc_d_surface o k : loc o (d_surface_ddummy o k). Proof. unfold d_surface_ddummy. lcgo. Qed.
Lemma lc_jac_norm o : loc o (jac_norm o). Proof. unfold jac_norm. lcgo. Qed.
#[export] Hint Resolve lc_d_volume lc_d_surface lc_jac_norm : lc.
Lemma lc_jac_entry o n k : loc o (jac_entry o n k). Proof. unfold jac_entry. lcgo. Qed.
#[export] Hint Resolve lc_jac_entry : lc.
Lemma lc_jac_rows o r kj : loc o (gets (fun h => let* rows := all_rows h r kj in vstack_T rows)).
Proof.
  apply lc_gets. intros be se a s l l' _. replace (all_rows (mk_heap be se a s l') r kj) with (all_rows (mk_heap be se a s l) r kj); [reflexivity|].
  induction kj as [|[k j] kj IH]; cbn [all_rows]; [reflexivity|]. rewrite IH. unfold key_rows, sderef, deref. cbn [h_arrs]. reflexivity.
Qed.
#[export] Hint Resolve lc_jac_rows : lc.

(** ** the calls that change the object *)
Lemma lc_clear_geom o : loc o clear_geom_cache. Proof. unfold clear_geom_cache. lcgo. Qed.
Lemma lc_clear_param o : loc o clear_param_cache. Proof. unfold clear_param_cache. lcgo. Qed.
#[export] Hint Resolve lc_clear_geom lc_clear_param : lc.
Lemma lc_update o kw : loc o (update_params o kw). Proof. unfold update_params. lcgo. Qed.
Lemma lc_bi_step o a v : loc o (bistatic_step o a v). Proof. unfold bistatic_step. lcgo. Qed.
#[export] Hint Resolve lc_update lc_bi_step : lc.
Lemma lc_mono o p : loc o (set_monostatic o p). Proof. unfold set_monostatic. lcgo. Qed.
Lemma lc_bi o a b c d : loc o (set_bistatic o a b c d). Proof. unfold set_bistatic. lcgo. Qed.
Lemma lc_loop o kw : loc o (set_geometry_loop o kw).
Proof. induction kw as [|[a v] kw IH]; cbn [set_geometry_loop]; [lcgo|]. lcgo. Qed.
#[export] Hint Resolve lc_mono lc_bi lc_loop : lc.
Lemma lc_geo o kw : loc o (set_geometry o kw). Proof. unfold set_geometry. lcgo. Qed.
Lemma lc_set_def o p d : loc o (set_def o p d). Proof. unfold set_def. lcgo. Qed.
#[export] Hint Resolve lc_geo lc_set_def : lc.
