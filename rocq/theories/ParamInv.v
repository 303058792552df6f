(** The caches of the parameter functions, after any history whatsoever (no admissibility needed):
    every entry belongs to the definition in force. *)
From Verif Require Export Api.
Open Scope string_scope.
Open Scope nat_scope.
Open Scope list_scope.

Definition dsyms (d : pdef) : list string := match d with DStr e => free_syms e | _ => [] end.
Definition fun_of (h : heap) (d : pdef) (f : option compiled) : Prop :=
  match d with
  | DVal _ => f = None
  | DStr e | DSym e => exists be c, f = Some c /\ lambdify be (h_seng h) (dsyms d) [e] = Ok c
  end.
Definition sym_entry (h : heap) (k : ckey) (v : cval) : Prop :=
  exists r p, obj h (fst k) = Ok r /\ snd k = [pname_str p] /\ v = VStrs (dsyms (r_def r p)).
Definition fun_entry (h : heap) (k : ckey) (v : cval) : Prop :=
  exists r p f, obj h (fst k) = Ok r /\ snd k = [pname_str p] /\ v = VFun f /\ fun_of h (r_def r p) f.
Definition PC (w : world) : Prop :=
  (forall k v, In (k, v) (w_caches w CPSymbs) -> sym_entry (w_heap w) k v) /\
  (forall k v, In (k, v) (w_caches w CPFuncs) -> fun_entry (w_heap w) k v).
Definition pcache (n : cname) : bool := match n with CPSymbs | CPFuncs => true | _ => false end.

(** definitions of existing objects are kept *)
Definition defs_kept (h h' : heap) : Prop :=
  h_seng h' = h_seng h /\
  forall i r, obj h i = Ok r -> exists r', obj h' i = Ok r' /\ r_def r' = r_def r.
Lemma fun_of_seng h h' d f : h_seng h' = h_seng h -> fun_of h d f -> fun_of h' d f.
Proof. unfold fun_of. now intros ->. Qed.
Lemma strip_def r r' : strip r = strip r' -> r_def r = r_def r'.
Proof. intros H. now apply (f_equal r_def) in H. Qed.
Lemma defs_frame h h' : hstrip h' = hstrip h -> defs_kept h h'.
Proof.
  intros H. destruct (evol_frame _ _ H) as (_ & Hs & _ & _ & X & _). split; [exact Hs|]. intros i r Hr. destruct (X i r Hr) as (r' & A & B).
  exists r'. split; [exact A|]. now apply strip_def in B.
Qed.
Lemma PC_move w w' : PC w -> defs_kept (w_heap w) (w_heap w') ->
  (forall n, pcache n = true -> incl (w_caches w' n) (w_caches w n)) -> PC w'.
Proof.
  intros [A B] [Hs D] I. split; intros k v Hin.
  - destruct (A k v (I CPSymbs eq_refl _ Hin)) as (r & p & Hr & Hk & Hv). destruct (D _ _ Hr) as (r' & Hr' & E).
    exists r', p. rewrite E. auto.
  - destruct (B k v (I CPFuncs eq_refl _ Hin)) as (r & p & f & Hr & Hk & Hv). destruct (D _ _ Hr) as (r' & Hr' & E).
    exists r', p, f. rewrite E. destruct Hv as [-> F]. repeat split; auto. eapply fun_of_seng; eassumption.
Qed.

Definition kp {A} (m : M A) : Prop := forall w, PC w -> PC (fst (m w)).
Lemma kp_ret {A} (a : A) : kp (ret a). Proof. intros w H; exact H. Qed.
Lemma kp_fail {A} e : kp (@fail A e). Proof. intros w H; exact H. Qed.
Lemma kp_lift {A} (r : res A) : kp (lift r). Proof. intros w H; exact H. Qed.
Lemma kp_gets {A} (f : heap -> res A) : kp (gets f). Proof. intros w H; exact H. Qed.
Lemma kp_bind {A B} (m : M A) (k : A -> M B) : kp m -> (forall a, kp (k a)) -> kp (bind m k).
Proof. intros Hm Hk w H. specialize (Hm w H). unfold bind. destruct (m w) as [w' [a|e]]; [now apply Hk|exact Hm]. Qed.
Lemma kp_catch {A} (m : M A) (k : exn -> M A) : kp m -> (forall a, kp (k a)) -> kp (catch m k).
Proof. intros Hm Hk w H. specialize (Hm w H). unfold catch. destruct (m w) as [w' [a|e]]; [exact Hm|now apply Hk]. Qed.
Lemma PC_set_other w n c : pcache n = false -> PC w -> PC (set_cache w n c).
Proof.
  intros Hn [A B]. split; intros k v Hin; cbn [set_cache w_caches w_heap] in *.
  - destruct n; try discriminate Hn; now apply A.
  - destruct n; try discriminate Hn; now apply B.
Qed.
Lemma kp_cached_other n k m : pcache n = false -> kp m -> kp (cached n k m).
Proof.
  intros Hn Hm w H. unfold cached. destruct (w_on w); [|now apply Hm]. destruct (lru_get _ _); [now apply PC_set_other|].
  specialize (Hm w H). destruct (m w) as [w' [v|e]]; [|exact Hm]. now apply PC_set_other.
Qed.
(** a step that neither touches the two caches nor the definitions *)
Lemma kp_frame {A} (m : M A) : frame m -> (forall w n, pcache n = true -> w_caches (fst (m w)) n = w_caches w n) -> kp m.
Proof.
  intros F C w H. apply (PC_move w); [exact H|now apply defs_frame, F|]. intros n Hn. rewrite C by exact Hn. apply incl_refl.
Qed.

Lemma kp_get_obj o : kp (get_obj o). Proof. apply kp_gets. Qed.
Lemma kp_m_ang o a : kp (m_ang o a). Proof. apply kp_gets. Qed.
Lemma kp_nmax o : kp (m_nmax o). Proof. apply kp_gets. Qed.
Lemma kp_get_I0 o : kp (get_I0 o). Proof. apply kp_gets. Qed.

(** the two cached methods: they keep the heap, and return what belongs to the definition in force *)
Lemma cached_cases n k (m : M cval) w : (forall w, w_heap (fst (m w)) = w_heap w) ->
  w_heap (fst (cached n k m w)) = w_heap w /\
  ((exists v, snd (cached n k m w) = Ok v /\ In (k, v) (w_caches w n)) \/ snd (cached n k m w) = snd (m w)).
Proof.
  intros Hm. unfold cached. destruct (w_on w); [|split; [apply Hm|now right]].
  destruct (lru_get (w_caches w n) k) as [v|] eqn:E.
  - split; [reflexivity|]. left. exists v. split; [reflexivity|]. now apply lru_get_In.
  - specialize (Hm w). destruct (m w) as [w' [v|e]]; cbn [fst snd] in *; split; auto.
Qed.
Lemma pname_str_inj p q : pname_str p = pname_str q -> p = q.
Proof. destruct p, q; simpl; congruence. Qed.

Section Reads.
  Context (o : nat) (p : pname).
  Definition symbs_body : M cval := do r <- get_obj o ;; ret (VStrs (match r_def r p with DStr e => free_syms e | _ => [] end)).
  Lemma symbs_body_eq w : symbs_body w = (w, let* r := obj (w_heap w) o in Ok (VStrs (dsyms (r_def r p)))).
  Proof. unfold symbs_body, bind, get_obj, gets. destruct (obj (w_heap w) o); reflexivity. Qed.
  Lemma kp_symbs : kp (get_param_symbs o p).
  Proof.
    apply kp_bind; [|intros; apply kp_lift]. intros w H. unfold cached. fold symbs_body. destruct (w_on w).
    - destruct (lru_get (w_caches w CPSymbs) (o, [pname_str p])) as [v|] eqn:E.
      + destruct H as [A B]. split; intros k x Hin; cbn [fst set_cache w_caches w_heap cname_eqb] in *; [|now apply B].
        apply In_touch in Hin. destruct Hin as [Hin|Hin]; [|now apply A]. injection Hin as -> ->. apply A. now apply lru_get_In.
      + rewrite symbs_body_eq. destruct (obj (w_heap w) o) as [r|e] eqn:Hr; cbn [rbind fst]; [|exact H].
        destruct H as [A B]. split; intros k x Hin; cbn [fst set_cache w_caches w_heap cname_eqb] in *; [|now apply B].
        apply In_put in Hin. destruct Hin as [Hin|Hin]; [|now apply A]. injection Hin as -> ->. exists r, p. auto.
    - rewrite symbs_body_eq. exact H.
  Qed.
  Lemma symbs_heap w : w_heap (fst (get_param_symbs o p w)) = w_heap w.
  Proof.
    unfold get_param_symbs. fold symbs_body. unfold bind.
    destruct (cached_cases CPSymbs (o, [pname_str p]) symbs_body w) as [Hh _]; [intros u; now rewrite symbs_body_eq|].
    destruct (cached CPSymbs _ symbs_body w) as [w' [v|e]]; cbn [fst] in *; [|exact Hh].
    unfold lift. exact Hh.
  Qed.
  Lemma symbs_val w r : PC w -> obj (w_heap w) o = Ok r -> snd (get_param_symbs o p w) = Ok (dsyms (r_def r p)).
  Proof.
    intros H Hr. unfold get_param_symbs. fold symbs_body. unfold bind.
    destruct (cached_cases CPSymbs (o, [pname_str p]) symbs_body w) as [_ Hv]; [intros u; now rewrite symbs_body_eq|].
    assert (E : snd (cached CPSymbs (o, [pname_str p]) symbs_body w) = Ok (VStrs (dsyms (r_def r p)))).
    { destruct Hv as [(v & Hv & Hin)|Hv].
      - rewrite Hv. destruct (proj1 H _ _ Hin) as (r' & q & Hr' & Hk & ->). cbn [fst snd] in *. replace r' with r by congruence.
        injection Hk as Hk. now rewrite (pname_str_inj _ _ Hk).
      - rewrite Hv, symbs_body_eq, Hr. reflexivity. }
    destruct (cached CPSymbs _ symbs_body w) as [w' x]; cbn [snd] in E. subst x. reflexivity.
  Qed.

  Definition funcs_res (h : heap) (r : rt1) : res (option compiled) :=
    match r_def r p with
    | DVal _ => Ok None
    | DStr d | DSym d => let* c := lambdify (h_be h) (h_seng h) (dsyms (r_def r p)) [d] in Ok (Some c)
    end.
  Lemma funcs_body_eq w r : PC w -> obj (w_heap w) o = Ok r ->
    exists w', funcs_body o p w = (w', let* f := funcs_res (w_heap w) r in Ok (VFun f)) /\ PC w' /\ w_heap w' = w_heap w.
  Proof.
    intros H Hr. unfold funcs_body. rewrite (bind_get o r _ w Hr).
    pose proof (symbs_val w r H Hr) as SV. pose proof (symbs_heap w) as SH. pose proof (kp_symbs w H) as SK.
    unfold funcs_res. destruct (r_def r p) as [d|d|v] eqn:Ed.
    - unfold bind at 1. destruct (get_param_symbs o p w) as [w1 x]. cbn [fst snd] in SV, SH, SK. subst x.
      exists w1. split; [|auto]. unfold bind, gets. rewrite SH. destruct (lambdify _ _ _ _); reflexivity.
    - unfold bind at 1. destruct (get_param_symbs o p w) as [w1 x]. cbn [fst snd] in SV, SH, SK. subst x.
      exists w1. split; [|auto]. unfold bind, gets. rewrite SH. destruct (lambdify _ _ _ _); reflexivity.
    - exists w. split; [reflexivity|auto].
  Qed.
  Lemma funcs_body_err w e : obj (w_heap w) o = Err e -> funcs_body o p w = (w, Err e).
  Proof. intros Hr. unfold funcs_body, bind, get_obj, gets. now rewrite Hr. Qed.
  Lemma funcs_res_ok h r f : funcs_res h r = Ok f -> fun_of h (r_def r p) f.
  Proof.
    unfold funcs_res, fun_of. destruct (r_def r p); [| |congruence];
      destruct (lambdify _ _ _ _) eqn:L; try discriminate; intros E; inversion E; eauto.
  Qed.
  Lemma kp_funcs : kp (get_param_funcs o p).
  Proof.
    unfold get_param_funcs. fold (funcs_body o p). apply kp_bind; [|intros; apply kp_lift]. intros w H. unfold cached. destruct (w_on w).
    - destruct (lru_get (w_caches w CPFuncs) (o, [pname_str p])) as [v|] eqn:E.
      + destruct H as [A B]. split; intros k x Hin; cbn [fst set_cache w_caches w_heap cname_eqb] in *; [now apply A|].
        apply In_touch in Hin. destruct Hin as [Hin|Hin]; [|now apply B]. injection Hin as -> ->. apply B. now apply lru_get_In.
      + destruct (obj (w_heap w) o) as [r|e] eqn:Hr.
        * destruct (funcs_body_eq w r H Hr) as (w' & -> & H' & Hh). destruct (funcs_res (w_heap w) r) as [f|e] eqn:F; cbn [rbind fst]; [|exact H'].
          destruct H' as [A B]. split; intros k x Hin; cbn [fst set_cache w_caches w_heap cname_eqb] in *; [now apply A|].
          apply In_put in Hin. destruct Hin as [Hin|Hin]; [|now apply B]. injection Hin as -> ->. exists r, p, f.
          rewrite Hh. repeat split; auto. eapply funcs_res_ok; eassumption.
        * rewrite (funcs_body_err w e Hr). exact H.
    - destruct (obj (w_heap w) o) as [r|e] eqn:Hr.
      * destruct (funcs_body_eq w r H Hr) as (w' & -> & H' & Hh). exact H'.
      * rewrite (funcs_body_err w e Hr). exact H.
  Qed.
  (** what _get_param_funcs returns *)
  Lemma funcs_val w r : PC w -> obj (w_heap w) o = Ok r ->
    exists w', PC w' /\ w_heap w' = w_heap w /\
      ((exists f, get_param_funcs o p w = (w', Ok f) /\ fun_of (w_heap w) (r_def r p) f) \/
       (exists e, get_param_funcs o p w = (w', Err e) /\ funcs_res (w_heap w) r = Err e)).
  Proof.
    intros H Hr. exists (fst (get_param_funcs o p w)). split; [now apply kp_funcs|].
    assert (G : get_param_funcs o p w = let '(w', x) := cached CPFuncs (o, [pname_str p]) (funcs_body o p) w in
                (w', let* v := x in as_fun v)).
    { unfold get_param_funcs. fold (funcs_body o p). unfold bind at 1. destruct (cached _ _ _ w) as [w' [v|e]]; reflexivity. }
    rewrite G. clear G. unfold cached.
    destruct (funcs_body_eq w r H Hr) as (w1 & E1 & H1 & Hh).
    assert (D : forall w2 : world, w_heap w2 = w_heap w ->
      w_heap w2 = w_heap w /\
      ((exists f, (w2, let* v := (let* f := funcs_res (w_heap w) r in Ok (VFun f)) in as_fun v) = (w2, Ok f) /\ fun_of (w_heap w) (r_def r p) f) \/
       (exists e, (w2, let* v := (let* f := funcs_res (w_heap w) r in Ok (VFun f)) in as_fun v) = (w2, Err e) /\ funcs_res (w_heap w) r = Err e))).
    { intros w2 H2. split; [exact H2|]. destruct (funcs_res (w_heap w) r) as [f|e] eqn:F; cbn [rbind as_fun].
      - left. exists f. split; [reflexivity|eapply funcs_res_ok; eassumption].
      - right. exists e. auto. }
    destruct (w_on w).
    - destruct (lru_get (w_caches w CPFuncs) (o, [pname_str p])) as [v|] eqn:E.
      + apply lru_get_In in E. destruct (proj2 H _ _ E) as (r' & q & f & Hr' & Hk & -> & F). cbn [fst snd] in *. injection Hk as Hk.
        apply pname_str_inj in Hk. subst q. replace r' with r in F by congruence. split; [reflexivity|]. left. exists f. split; [reflexivity|exact F].
      + rewrite E1. destruct (funcs_res (w_heap w) r) as [f|e]; apply D; exact Hh.
    - rewrite E1. apply D. exact Hh.
  Qed.
End Reads.

Create HintDb kp.
#[export] Hint Resolve kp_ret kp_fail kp_lift kp_gets kp_get_obj kp_m_ang kp_nmax kp_get_I0 kp_symbs kp_funcs : kp.
Ltac kpgo :=
  repeat first
    [ progress (intros)
    | solve [auto with kp]
    | apply kp_bind
    | apply kp_catch
    | apply kp_cached_other; [reflexivity|]
    | match goal with
      | |- kp (let '(_, _) := ?p in _) => destruct p
      | |- kp (match ?x with _ => _ end) => destruct x
      | |- kp (if ?x then _ else _) => destruct x
      end ].
Lemma kp_mu_0 o : kp (mu_0 o). Proof. unfold mu_0. kpgo. Qed.
Lemma kp_mu_ex o : kp (mu_ex o). Proof. unfold mu_ex. kpgo. Qed.
#[export] Hint Resolve kp_mu_0 kp_mu_ex : kp.
Lemma kp_mu_0_x o : kp (mu_0_x o). Proof. unfold mu_0_x. kpgo. Qed.
Lemma kp_mu_ex_x o : kp (mu_ex_x o). Proof. unfold mu_ex_x. kpgo. Qed.
Lemma kp_eval_param o p : kp (eval_param o p). Proof. unfold eval_param. kpgo. Qed.
#[export] Hint Resolve kp_mu_0_x kp_mu_ex_x kp_eval_param : kp.
Lemma kp_param_val o p : kp (param_val o p). Proof. unfold param_val. kpgo. Qed.
Lemma kp_lambda sid keys : kp (lambda_func sid keys). Proof. unfold lambda_func. kpgo. Qed.
#[export] Hint Resolve kp_param_val kp_lambda : kp.
Lemma kp_scat_calc sid a b c d kw : kp (scat_calc sid a b c d kw). Proof. unfold scat_calc. kpgo. Qed.
#[export] Hint Resolve kp_scat_calc : kp.
Lemma kp_obj_scat_calc o x : kp (obj_scat_calc o x). Proof. unfold obj_scat_calc. kpgo. Qed.
#[export] Hint Resolve kp_obj_scat_calc : kp.
Lemma kp_surface o : kp (m_surface o). Proof. unfold m_surface. kpgo. Qed.
Lemma kp_volume o : kp (m_volume o). Proof. unfold m_volume. kpgo. Qed.
Lemma kp_convert o v : kp (m_convert o v). Proof. unfold m_convert. kpgo. Qed.
Lemma kp_all_param_symbs o : kp (all_param_symbs o). Proof. unfold all_param_symbs. kpgo. Qed.
#[export] Hint Resolve kp_surface kp_volume kp_convert kp_all_param_symbs : kp.

(** steps that do not touch any cache *)
Definition nc {A} (m : M A) : Prop := forall w, w_caches (fst (m w)) = w_caches w.
Lemma nc_ret {A} (a : A) : nc (ret a). Proof. intros w; reflexivity. Qed.
Lemma nc_fail {A} e : nc (@fail A e). Proof. intros w; reflexivity. Qed.
Lemma nc_lift {A} (r : res A) : nc (lift r). Proof. intros w; reflexivity. Qed.
Lemma nc_gets {A} (f : heap -> res A) : nc (gets f). Proof. intros w; reflexivity. Qed.
Lemma nc_get_obj o : nc (get_obj o). Proof. intros w; reflexivity. Qed.
Lemma nc_put o r : nc (put_obj o r). Proof. intros w; reflexivity. Qed.
Lemma nc_bind {A B} (m : M A) (k : A -> M B) : nc m -> (forall a, nc (k a)) -> nc (bind m k).
Proof. intros Hm Hk w. specialize (Hm w). unfold bind. destruct (m w) as [w' [a|e]]; cbn [fst] in *; [|exact Hm]. rewrite Hk. exact Hm. Qed.
Create HintDb ncd.
#[export] Hint Resolve nc_ret nc_fail nc_lift nc_gets nc_get_obj nc_put : ncd.
Ltac ncgo :=
  repeat first
    [ progress (intros)
    | solve [auto with ncd]
    | apply nc_bind
    | match goal with
      | |- nc (let '(_, _) := ?p in _) => destruct p
      | |- nc (match ?x with _ => _ end) => destruct x
      | |- nc (if ?x then _ else _) => destruct x
      end ].
Lemma nc_m_fn o : nc (m_fn o). Proof. unfold m_fn. ncgo. Qed.
#[export] Hint Resolve nc_m_fn : ncd.
Lemma nc_m_fnevals o : nc (m_fnevals o). Proof. unfold m_fnevals. ncgo. Qed.
Lemma kp_nc {A} (m : M A) : frame m -> nc m -> kp m.
Proof. intros F N. apply kp_frame; [exact F|]. intros w n _. now rewrite N. Qed.
Lemma kp_m_fnevals o : kp (m_fnevals o). Proof. apply kp_nc; [apply fr_m_fnevals|apply nc_m_fnevals]. Qed.
#[export] Hint Resolve kp_m_fnevals : kp.
Lemma kp_m_Fint o b : kp (m_Fint o b). Proof. unfold m_Fint. kpgo. Qed.
#[export] Hint Resolve kp_m_Fint : kp.
Lemma kp_interaction o : kp (m_interaction o). Proof. unfold m_interaction. kpgo. Qed.
#[export] Hint Resolve kp_interaction : kp.
Lemma kp_calc_body o : kp (m_calc_body o). Proof. unfold m_calc_body. kpgo. Qed.
#[export] Hint Resolve kp_calc_body : kp.
Lemma kp_lambdify_diff o d : kp (lambdify_diff o d). Proof. unfold lambdify_diff. kpgo. Qed.
#[export] Hint Resolve kp_lambdify_diff : kp.
Lemma kp_dlam o x key : kp (d_dummy_lambda o x key). Proof. unfold d_dummy_lambda. destruct x; kpgo. Qed.
Lemma kp_call_full o c : kp (call_full o c). Proof. unfold call_full. kpgo. Qed.
Lemma kp_dparam o p k : kp (dparam_ddummy_lambda o p k). Proof. unfold dparam_ddummy_lambda. kpgo. Qed.
#[export] Hint Resolve kp_dlam kp_call_full kp_dparam : kp.
Lemma kp_d1 o : kp (dvolume_dtau o). Proof. unfold dvolume_dtau. kpgo. Qed.
Lemma kp_d2 o : kp (dvolume_domega o). Proof. unfold dvolume_domega. kpgo. Qed.
Lemma kp_d3 o : kp (dvolume_dbsf o). Proof. unfold dvolume_dbsf. kpgo. Qed.
Lemma kp_d4 o : kp (dvolume_dNormBRDF o). Proof. unfold dvolume_dNormBRDF. kpgo. Qed.
Lemma kp_d5 o : kp (dsurface_dtau o). Proof. unfold dsurface_dtau. kpgo. Qed.
Lemma kp_d6 o : kp (dsurface_domega o). Proof. unfold dsurface_domega. kpgo. Qed.
Lemma kp_d7 o : kp (dsurface_dbsf o). Proof. unfold dsurface_dbsf. kpgo. Qed.
Lemma kp_d8 o : kp (dsurface_dNormBRDF o). Proof. unfold dsurface_dNormBRDF. kpgo. Qed.
#[export] Hint Resolve kp_d1 kp_d2 kp_d3 kp_d4 kp_d5 kp_d6 kp_d7 kp_d8 : kp.
Lemma kp_d_volume o k : kp (d_volume_ddummy o k). Proof. unfold d_volume_ddummy. kpgo. Qed.
Lemma kp_d_surface o k : kp (d_surface_ddummy o k). Proof. unfold d_surface_ddummy. kpgo. Qed.
Lemma kp_jac_norm o : kp (jac_norm o). Proof. unfold jac_norm. kpgo. Qed.
#[export] Hint Resolve kp_d_volume kp_d_surface kp_jac_norm : kp.
Lemma kp_jac_entry o n k : kp (jac_entry o n k). Proof. unfold jac_entry. kpgo. Qed.
#[export] Hint Resolve kp_jac_entry : kp.
Lemma kp_jac_entries o n ks : kp (jac_entries o n ks). Proof. induction ks; simpl; kpgo. Qed.
#[export] Hint Resolve kp_jac_entries : kp.
Lemma kp_jacobian o ks f : kp (api_jacobian o ks f). Proof. unfold api_jacobian. kpgo. Qed.

(** state changing calls: which caches they touch *)
Definition np {A} (m : M A) : Prop := forall w n, pcache n = true -> incl (w_caches (fst (m w)) n) (w_caches w n).
Lemma np_nc {A} (m : M A) : nc m -> np m. Proof. intros H w n _. rewrite H. apply incl_refl. Qed.
Lemma np_bind {A B} (m : M A) (k : A -> M B) : np m -> (forall a, np (k a)) -> np (bind m k).
Proof.
  intros Hm Hk w n Hn. specialize (Hm w n Hn). unfold bind. destruct (m w) as [w' [a|e]]; cbn [fst] in *; [|exact Hm].
  eapply incl_tran; [apply Hk; exact Hn|exact Hm].
Qed.
Lemma np_clear n : np (cache_clear n).
Proof.
  intros w m _. unfold cache_clear, set_cache. cbn [fst w_caches]. destruct (cname_eqb n m); [intros x []|apply incl_refl].
Qed.
Create HintDb npd.
Ltac npgo :=
  repeat first
    [ progress (intros)
    | apply np_clear
    | solve [auto with npd]
    | solve [apply np_nc; auto with ncd]
    | apply np_bind
    | match goal with
      | |- np (let '(_, _) := ?p in _) => destruct p
      | |- np (match ?x with _ => _ end) => destruct x
      | |- np (if ?x then _ else _) => destruct x
      end ].
Lemma np_geom : np clear_geom_cache. Proof. unfold clear_geom_cache. npgo. Qed.
#[export] Hint Resolve np_geom : npd.
Lemma np_mono o p : np (set_monostatic o p). Proof. unfold set_monostatic. npgo. Qed.
Lemma np_bistep o a v : np (bistatic_step o a v). Proof. unfold bistatic_step. npgo. Qed.
#[export] Hint Resolve np_mono np_bistep : npd.
Lemma np_bi o a b c d : np (set_bistatic o a b c d). Proof. unfold set_bistatic. npgo. Qed.
Lemma np_geo_loop o kw : np (set_geometry_loop o kw). Proof. induction kw as [|[a v] kw IH]; simpl; npgo. Qed.
#[export] Hint Resolve np_bi np_geo_loop : npd.
Lemma np_geo o kw : np (set_geometry o kw). Proof. unfold set_geometry. npgo. Qed.
Lemma nc_update o kw : nc (update_params o kw). Proof. unfold update_params. ncgo. Qed.
Lemma nc_add_obj r : nc (add_obj r). Proof. intros w; reflexivity. Qed.
Lemma nc_add_arr r : nc (add_arr r). Proof. intros w; reflexivity. Qed.
Lemma nc_add_scat r : nc (add_scat r). Proof. intros w; reflexivity. Qed.
#[export] Hint Resolve nc_update nc_add_obj nc_add_arr nc_add_scat : ncd.
Lemma np_new V S a b c d e f : np (new_rt1 V S a b c d e f). Proof. unfold new_rt1. npgo. Qed.
Lemma nc_copy_val v : nc (copy_val v). Proof. unfold copy_val. ncgo. Qed.
#[export] Hint Resolve nc_copy_val : ncd.
Lemma nc_copy_sval v : nc (copy_sval v). Proof. unfold copy_sval. ncgo. Qed.
Lemma nc_copy_opt v : nc (copy_opt v). Proof. unfold copy_opt. ncgo. Qed.
Lemma nc_copy_def v : nc (copy_def v). Proof. unfold copy_def. ncgo. Qed.
#[export] Hint Resolve nc_copy_sval nc_copy_opt nc_copy_def : ncd.
Lemma nc_copy_params v : nc (copy_params v). Proof. induction v as [|[k v] d IH]; simpl; ncgo. Qed.
#[export] Hint Resolve nc_copy_params : ncd.
Lemma nc_pickle o : nc (pickle_copy o). Proof. unfold pickle_copy, getstate. ncgo. Qed.

(** ** Every call keeps the invariant *)
Definition keeps_defs (p : op) : bool := match p with OSetDef _ _ _ => false | _ => true end.
Lemma step_obj_def p i r : keeps_defs p = true -> r_def (step_obj p i r) = r_def r.
Proof.
  intros K. destruct p; try discriminate K; cbn [step_obj]; try reflexivity;
    match goal with |- context [?x =? i] => destruct (x =? i) end; try reflexivity.
  - unfold geo_rec. destruct (ang_kw kw) as [akw|]; [|reflexivity]. destruct (_ && _); [reflexivity|].
    clear. revert r. induction akw as [|[a v] akw IH]; intros r'; simpl; [reflexivity|].
    destruct (existsb _ _); [reflexivity|]. destruct v; [|reflexivity]. now rewrite IH.
  - now destruct p0 as [[|]|].
  - unfold bi_rec, seqf, bi_step. now destruct t0 as [[|]|], tex as [[|]|], p0 as [[|]|], pex as [[|]|].
Qed.
Lemma step_seng w p : h_seng (w_heap (fst (step w p))) = h_seng (w_heap w).
Proof.
  destruct (is_world_op p) eqn:Hp.
  - destruct p; try discriminate Hp; cbn [step]; rewrite fst_as_out.
    + unfold set_lambda_backend. destruct (backend_of_str s); auto.
    + unfold mutate. destruct (nth_error (h_arrs (w_heap w)) aid); auto.
  - destruct (step_evol w p Hp) as (_ & H1 & _). exact H1.
Qed.
Lemma step_defs w p : keeps_defs p = true -> defs_kept (w_heap w) (w_heap (fst (step w p))).
Proof.
  intros K. split; [apply step_seng|]. intros i r Hr. destruct (step_obj_ex w p i r Hr) as (r' & Hr' & E). exists r'. split; [exact Hr'|].
  rewrite (strip_def _ _ E). now apply step_obj_def.
Qed.
Lemma kp_update o kw : kp (update_params o kw).
Proof.
  intros w H. apply (PC_move w); [exact H| |intros n Hn; now apply np_nc; [apply nc_update|]].
  assert (X := step_defs w (OUpdate o kw) eq_refl). cbn [step] in X. rewrite fst_as_out in X. exact X.
Qed.
#[export] Hint Resolve kp_update kp_jacobian : kp.
Lemma kp_calc o kw : kp (m_calc o kw). Proof. unfold m_calc. kpgo. Qed.
Lemma kp_api_surface o kw : kp (api_surface o kw). Proof. unfold api_surface. kpgo. Qed.
Lemma kp_api_volume o kw : kp (api_volume o kw). Proof. unfold api_volume. kpgo. Qed.
Lemma kp_api_interaction o kw : kp (api_interaction o kw). Proof. unfold api_interaction. kpgo. Qed.
#[export] Hint Resolve kp_calc kp_api_surface kp_api_volume kp_api_interaction : kp.
#[export] Hint Resolve np_geo np_new : npd.
#[export] Hint Resolve nc_pickle : ncd.
Lemma PC_set_def o q d w : PC (fst (set_def o q d w)).
Proof.
  unfold set_def, clear_param_cache, bind, cache_clear, get_obj, gets. cbn [set_cache w_heap].
  destruct (obj (w_heap w) o); cbn [put_obj fst]; split; intros k v Hin; destruct Hin.
Qed.
Lemma step_PC w p : PC w -> PC (fst (step w p)).
Proof.
  intros H.
  assert (EV : forall {A} (f : A -> out) m, kp m -> PC (fst (as_out f m w))) by (intros A f m Hm; rewrite fst_as_out; now apply Hm).
  assert (AO : forall {A} (f : A -> out) m, np m -> forall n, pcache n = true -> incl (w_caches (fst (as_out f m w)) n) (w_caches w n)).
  { intros A f m Hm n Hn. rewrite fst_as_out. now apply Hm. }
  destruct p; try (apply EV; kpgo; fail);
    try (apply (PC_move w); [exact H|now apply step_defs|]; intros n Hn; apply AO; [|exact Hn]; npgo; fail).
  - cbn [step]. rewrite fst_as_out. apply PC_set_def.
  - apply (PC_move w); [exact H|now apply step_defs|]; intros n Hn; apply AO; [|exact Hn].
    unfold set_lambda_backend. apply np_nc. intros u. destruct (backend_of_str s); reflexivity.
  - apply (PC_move w); [exact H|now apply step_defs|]; intros n Hn; apply AO; [|exact Hn].
    apply np_nc. intros u. unfold mutate. destruct (nth_error _ _); reflexivity.
Qed.
Lemma run_PC ps w : PC w -> PC (fst (run w ps)).
Proof.
  revert w. induction ps as [|p ps IH]; intros w H; [exact H|]. cbn [run]. pose proof (step_PC w p H) as X. destruct (step w p) as [w1 x].
  cbn [fst] in X. specialize (IH w1 X). destruct (run w1 ps). exact IH.
Qed.
Lemma PC_init seng on : PC (init seng on). Proof. split; intros k v []. Qed.
