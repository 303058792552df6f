(** What reading tau, omega, NormBRDF and bsf returns after an arbitrary history. *)
From Verif Require Export Shape ParamInv.
Open Scope string_scope.
Open Scope nat_scope.
Open Scope list_scope.

(** ** Broadcasting a set of shapes does not depend on order or multiplicity *)
Lemma bc_fold_none l : fold_left (fun acc s => match acc with Some a => bc_shape a s | None => None end) l None = None.
Proof. induction l; simpl; auto. Qed.
Lemma bc_fold_ble l : forall a r,
  fold_left (fun acc s => match acc with Some a => bc_shape a s | None => None end) l (Some a) = Some r ->
  ble a r /\ forall s, In s l -> ble s r.
Proof.
  induction l as [|s l IH]; intros a r H; simpl in H.
  - inversion H; subst. split; [apply ble_refl|intros ? []].
  - destruct (bc_shape a s) as [b|] eqn:E; [|rewrite bc_fold_none in H; discriminate].
    destruct (bc_ble _ _ _ E) as [Ba Bs]. destruct (IH b r H) as [H1 H2]. split; [eapply ble_trans; eassumption|].
    intros t [<-|Ht]; [eapply ble_trans; eassumption|auto].
Qed.
Lemma bc_fold_lub l : forall a u, ble a u -> (forall s, In s l -> ble s u) ->
  exists r, fold_left (fun acc s => match acc with Some a => bc_shape a s | None => None end) l (Some a) = Some r /\ ble r u.
Proof.
  induction l as [|s l IH]; intros a u Ha H; simpl; [eauto|].
  destruct (ble_lub a s u Ha (H s (or_introl eq_refl))) as (b & -> & Hb). apply IH; [exact Hb|]. intros t Ht. apply H. now right.
Qed.
Lemma ble_antisym s t : ble s t -> ble t s -> s = t.
Proof. unfold ble. intros H1 H2. rewrite bc_shape_comm in H2. congruence. Qed.
Lemma bc_shapes_incl l l' r : bc_shapes l = Some r -> incl l' l -> exists r', bc_shapes l' = Some r' /\ ble r' r.
Proof.
  intros H I. destruct (bc_fold_ble l [] r H) as [_ B]. apply bc_fold_lub; [apply ble_nil|]. intros s Hs. now apply B, I.
Qed.
Lemma bc_shapes_set l l' : incl l l' -> incl l' l -> bc_shapes l = bc_shapes l'.
Proof.
  intros I I'. destruct (bc_shapes l) as [r|] eqn:E, (bc_shapes l') as [r'|] eqn:E'; [| | |reflexivity].
  - destruct (bc_shapes_incl _ _ _ E I') as (x & X & Hx). destruct (bc_shapes_incl _ _ _ E' I) as (y & Y & Hy).
    f_equal. apply ble_antisym; congruence.
  - destruct (bc_shapes_incl _ _ _ E I') as (x & X & _). congruence.
  - destruct (bc_shapes_incl _ _ _ E' I) as (x & X & _). congruence.
Qed.

(** ** The specification of a read *)
Definition value_at (pd : dict (nd xr)) (i : list nat) (k : string) : xr :=
  match dget pd k with Some a => bget a i | None => NaN end.
Definition shape_at (pd : dict (nd xr)) (k : string) : list nat :=
  match dget pd k with Some a => shp a | None => [] end.
(** [x] is the outcome of evaluating [e] with the parameter values [pd] *)
Definition evaluates (pd : dict (nd xr)) (e : expr) (x : out) : Prop :=
  ((exists k, In k (syms e) /\ ~ In k (dkeys pd)) ->
     exists names, x = Raised (MissingParams names) /\ NoDup names /\
       forall k, In k names <-> In k (syms e) /\ ~ In k (dkeys pd)) /\
  ((forall k, In k (syms e) -> In k (dkeys pd)) ->
     match bc_shapes (map (shape_at pd) (syms e)) with
     | None => x = Raised ValueError
     | Some s => exists a, x = RetArr a /\ shp a = s /\ forall i, bget a i = evalX (value_at pd i) e
     end).

(** ** Calling a function whose arguments are exactly the symbols of the expression *)
Lemma dedup_incl l : incl (dedup l) l /\ incl l (dedup l).
Proof. split; intros x; apply In_dedup. Qed.

Section Own.
  Context (A : string -> nd xr).
  Definition kw_of (vars : list string) : dict (nd xr) := map (fun k => (k, A k)) vars.
  Lemma kw_keys vars : dkeys (kw_of vars) = vars.
  Proof. unfold kw_of, dkeys. rewrite map_map. cbn [fst]. apply map_id. Qed.
  Lemma kw_get vars k : In k vars -> dget (kw_of vars) k = Some (A k).
  Proof.
    unfold kw_of. induction vars as [|v vars IH]; intros H; [destruct H|]. simpl.
    destruct (String.eqb_spec k v) as [->|N]; [reflexivity|]. apply IH. destruct H; congruence.
  Qed.
  Lemma kw_lookup vars e (l : list string) : incl l vars ->
    rmap (fun v => match dget (kw_of vars) v with Some a => Ok a | None => @Err (nd xr) e end) l = Ok (map A l).
  Proof.
    induction l as [|v l IH]; intros I; [reflexivity|]. cbn [rmap map]. rewrite kw_get by (apply I; now left). cbn [rbind].
    rewrite IH; [reflexivity|]. intros x Hx. apply I. now right.
  Qed.
  Lemma env_own vars i k : In k vars -> env_of vars (map A vars) i k = bget (A k) i.
  Proof.
    induction vars as [|v vars IH]; intros H; [destruct H|]. simpl. destruct (String.eqb_spec k v) as [->|N]; [reflexivity|].
    apply IH. destruct H; congruence.
  Qed.
  Lemma shape_own vars k : In k vars -> shape_of_sym vars (map A vars) k = shp (A k).
  Proof.
    unfold shape_of_sym. induction vars as [|v vars IH]; intros H; [destruct H|]. simpl. destruct (String.eqb_spec k v) as [->|N]; [reflexivity|].
    apply IH. destruct H; congruence.
  Qed.
  Lemma call_own be e : (be = Symengine -> syms e <> []) ->
    match bc_shapes (map (fun k => shp (A k)) (syms e)) with
    | None => call1 (mk_comp be (free_syms e) [e]) [] (kw_of (free_syms e)) = Err ValueError
    | Some s => exists a, call1 (mk_comp be (free_syms e) [e]) [] (kw_of (free_syms e)) = Ok a /\ shp a = s /\
                  forall i, bget a i = evalX (fun k => bget (A k) i) e
    end.
  Proof.
    intros HB. unfold call1, call. cbn [c_be c_vars c_exprs].
    assert (I : incl (syms e) (free_syms e)) by apply dedup_incl.
    assert (I' : incl (free_syms e) (syms e)) by apply dedup_incl.
    destruct be.
    - unfold bind_sympy. cbn [length skipn]. replace (length (free_syms e) <? 0) with false by (symmetry; now apply Nat.ltb_ge, Nat.le_0_l).
      rewrite kw_keys. replace (forallb _ (free_syms e)) with true by (symmetry; apply forallb_forall; intros x Hx; now apply mem_In).
      cbn [negb]. rewrite kw_lookup by apply incl_refl. cbn [rbind app].
      replace (subset_b _ _) with true by (symmetry; apply subset_b_incl; unfold all_syms; cbn [flat_map]; rewrite app_nil_r; exact I).
      cbn [rmap]. unfold eval_sympy.
      rewrite (map_ext_in (shape_of_sym (free_syms e) (map A (free_syms e))) (fun k => shp (A k)) (syms e)) by (intros k Hk; apply shape_own, I, Hk).
      destruct (bc_shapes _) as [s|] eqn:E; cbn [rbind]; [|reflexivity].
      eexists. split; [reflexivity|]. split; [reflexivity|]. intros i. rewrite bget_mk. apply evalX_ext. intros k Hk.
      rewrite env_own by now apply I. apply bget_proj. eapply bc_shapes_sub; [eassumption|]. now apply (in_map (fun k => shp (A k))).
    - destruct (free_syms e) as [|v0 vars0] eqn:Ev.
      { exfalso. apply HB; [reflexivity|]. destruct (syms e) as [|x l]; [reflexivity|]. destruct (I x (or_introl eq_refl)). }
      rewrite <- Ev in *. clear HB. unfold bind_symengine. cbn [length skipn]. rewrite kw_lookup by apply incl_refl. cbn [rbind app].
      unfold broadcast_arrays. rewrite map_map.
      rewrite (bc_shapes_set (map (fun k => shp (A k)) (syms e)) (map (fun x => shp (A x)) (free_syms e)))
        by (apply incl_map; assumption).
      destruct (bc_shapes _) as [s|] eqn:E; cbn [rbind]; [|reflexivity].
      rewrite map_length, map_length, Nat.eqb_refl. cbn [rbind map]. eexists. split; [reflexivity|]. split.
      + unfold eval_symengine. cbn [shp]. rewrite Ev. reflexivity.
      + intros i. unfold eval_symengine. rewrite bget_mk. apply evalX_ext. intros k Hk.
        assert (Hs : shp (broadcast_to s (A v0)) = s) by reflexivity.
        replace (match map (broadcast_to s) (map A (free_syms e)) with [] => [] | a :: _ => shp a end) with s by (rewrite Ev; reflexivity).
        rewrite env_of_broadcast.
        * rewrite env_own by now apply I. apply bget_proj. eapply bc_shapes_sub; [eassumption|]. now apply (in_map (fun k => shp (A k))), I.
        * intros a Ha. apply in_map_iff in Ha. destruct Ha as (x & <- & Hx). eapply bc_shapes_sub; [eassumption|].
          now apply (in_map (fun k => shp (A k))).
  Qed.
End Own.

(** ** Reading a parameter *)
Definition val_or (pd : dict (nd xr)) (k : string) : nd xr := match dget pd k with Some a => a | None => scalar NaN end.
Definition read_of (pd : dict (nd xr)) (e : expr) (x : res (nd xr)) : Prop :=
  evaluates pd e (match x with Ok a => RetArr a | Err e => Raised e end).

Lemma dget_in {B} (d : dict B) k : In k (dkeys d) -> exists v, dget d k = Some v.
Proof. intros H. destruct (dget d k) as [v|] eqn:E; [eauto|]. now apply dget_None_notin in E. Qed.
Lemma rmap_missing {B} (d : dict sval) (f : sval -> res B) l :
  (exists k, In k l /\ ~ In k (dkeys d)) ->
  exists e, rmap (fun k => match dget d k with Some v => let* a := f v in Ok (k, a) | None => Err KeyError end) l = Err e.
Proof.
  induction l as [|x l IH]; intros (k & Hk & N); [destruct Hk|]. cbn [rmap].
  destruct (dget d x) as [v|] eqn:E; cbn [rbind]; [|eauto]. destruct (f v); cbn [rbind]; [|eauto].
  destruct Hk as [->|Hk]; [exfalso; apply N; now apply dget_Some_in in E|].
  destruct IH as (e & ->); [eauto|]. cbn [rbind]. eauto.
Qed.
Section Read.
  Context (o : nat) (p : pname).
  (** what eval_param does once the compiled function is known *)
  Lemma eval_param_str w r e c pd w' : obj (w_heap w) o = Ok r -> PC w -> r_def r p = DStr e ->
    get_param_funcs o p w = (w', Ok (Some c)) -> PC w' -> w_heap w' = w_heap w ->
    (exists be, c = mk_comp be (free_syms e) [e] /\ (be = Symengine -> syms e <> [])) ->
    params_nd (w_heap w) r = Ok pd ->
    read_of pd e (snd (param_val o p w)).
  Proof.
    intros Hr H Hd Hf H' Hh (be & -> & Hbe) Hp.
    unfold read_of, param_val. unfold bind at 1. unfold eval_param. unfold bind at 1. rewrite Hf.
    unfold bind at 1. pose proof (symbs_val o p w' r H') as SV. pose proof (symbs_heap o p w') as SH.
    rewrite Hh in SV. specialize (SV Hr). destruct (get_param_symbs o p w') as [w2 x]. cbn [fst snd] in SV, SH. subst x.
    rewrite Hd. cbn [dsyms]. assert (Hr2 : obj (w_heap w2) o = Ok r) by congruence.
    rewrite (bind_get o r _ w2 Hr2). unfold bind at 1. unfold gets at 1. rewrite SH, Hh.
    assert (K : dkeys pd = dkeys (r_params r)) by (eapply params_nd_keys; eassumption).
    set (look := rmap _ (free_syms e)).
    assert (Mi : (exists k, In k (syms e) /\ ~ In k (dkeys pd)) -> exists er, look = Err er).
    { intros (k & Hk & N). apply rmap_missing. exists k. split; [now apply In_dedup|]. now rewrite <- K. }
    assert (Al : (forall k, In k (syms e) -> In k (dkeys pd)) ->
       look = Ok (kw_of (val_or pd) (free_syms e))).
    { intros Hall. unfold look, kw_of.
      assert (G : forall k, In k (free_syms e) -> In k (dkeys pd)) by (intros k Hk; apply Hall; now apply In_dedup).
      clear look Mi Hall Hf. induction (free_syms e) as [|k l IH]; [reflexivity|]. cbn [rmap map].
      pose proof (params_nd_get _ _ _ k Hp) as X. destruct (dget (r_params r) k) as [v|] eqn:E.
      - destruct X as (a & Ha & Hg). rewrite Ha. cbn [rbind]. rewrite IH by (intros; apply G; now right). cbn [rbind]. unfold val_or. now rewrite Hg.
      - exfalso. specialize (G k (or_introl eq_refl)). apply dget_in in G. destruct G. congruence. }
    split.
    - intros M. destruct (Mi M) as (er & ->). cbn [rbind]. destruct M as (k & Hk & N).
      destruct (filter _ (free_syms e)) as [|x l] eqn:F.
      + exfalso. assert (X : In k (filter (fun k => negb (mem k (dkeys (r_params r)))) (free_syms e))).
        { apply filter_In. split; [now apply In_dedup|]. apply negb_true_iff. apply mem_not_In. now rewrite <- K. }
        rewrite F in X. destruct X.
      + exists (x :: l). split; [reflexivity|]. rewrite <- F. split; [apply NoDup_filter, NoDup_dedup|].
        intros k'. rewrite filter_In, negb_true_iff, mem_not_In, K. unfold free_syms. rewrite In_dedup. tauto.
    - intros All. rewrite (Al All). cbn [rbind].
      pose proof (call_own (val_or pd) be e Hbe) as CO.
      assert (Em : map (fun k => shp (val_or pd k)) (syms e) = map (shape_at pd) (syms e))
        by (apply map_ext; intros k; unfold shape_at, val_or; destruct (dget pd k); reflexivity).
      rewrite Em in CO. clear Em.
      destruct (bc_shapes (map (shape_at pd) (syms e))) as [s|].
      + destruct CO as (a & -> & Hs & Ha). exists a. split; [reflexivity|]. split; [exact Hs|]. intros i. rewrite Ha. apply evalX_ext.
        intros k Hk. unfold value_at, val_or. specialize (All k Hk). apply dget_in in All. destruct All as (b & ->). reflexivity.
      + rewrite CO. replace (filter _ _) with (@nil string); [reflexivity|]. symmetry.
        destruct (filter _ (free_syms e)) as [|x l] eqn:F; [reflexivity|]. exfalso.
        assert (X : In x (x :: l)) by now left. rewrite <- F in X. apply filter_In in X. destruct X as [X1 X2].
        apply negb_true_iff, mem_not_In in X2. apply X2. rewrite <- K. apply All. now apply In_dedup.
  Qed.
  Lemma eval_param_val w r v : obj (w_heap w) o = Ok r -> PC w -> r_def r p = DVal v ->
    snd (param_val o p w) = deref (w_heap w) v.
  Proof.
    intros Hr H Hd. destruct (funcs_val o p w r H Hr) as (w' & H' & Hh & [(f & Hf & F)|(e & Hf & F)]).
    - rewrite Hd in F. cbn [fun_of] in F. subst f. unfold param_val, eval_param, bind at 1. unfold bind at 1. rewrite Hf.
      assert (Hr2 : obj (w_heap w') o = Ok r) by congruence. rewrite (bind_get o r _ w' Hr2), Hd.
      unfold bind, gets. rewrite Hh. destruct (deref (w_heap w) v); reflexivity.
    - unfold funcs_res in F. rewrite Hd in F. discriminate.
  Qed.
End Read.

(** ** Histories *)
(** the definition in force: the one assigned last, starting from [d] *)
Definition latest_def (o : nat) (p : pname) (d : pdef) (ps : list op) : pdef :=
  fold_left (fun d q => match q with
                        | OSetDef o' p' d' => if (o' =? o) && String.eqb (pname_str p') (pname_str p) then d' else d
                        | _ => d
                        end) ps d.
Lemma step_def w q o r p : obj (w_heap w) o = Ok r ->
  exists r', obj (w_heap (fst (step w q))) o = Ok r' /\ r_def r' p = latest_def o p (r_def r p) [q].
Proof.
  intros Hr. destruct (step_obj_ex w q o r Hr) as (r' & Hr' & E). exists r'. split; [exact Hr'|]. rewrite (strip_def _ _ E).
  destruct (keeps_defs q) eqn:K.
  - rewrite step_obj_def by exact K. destruct q; try reflexivity. discriminate.
  - destruct q; try discriminate K. cbn [step_obj latest_def fold_left]. destruct (o0 =? o); [|reflexivity].
    cbn [with_def r_def andb]. destruct p0, p; reflexivity.
Qed.
Lemma run_def ps : forall w o r p, obj (w_heap w) o = Ok r ->
  exists r', obj (w_heap (fst (run w ps))) o = Ok r' /\ r_def r' p = latest_def o p (r_def r p) ps.
Proof.
  induction ps as [|q ps IH]; intros w o r p Hr; [exists r; auto|]. rewrite run_cons. cbn [fst].
  destruct (step_def w q o r p Hr) as (r1 & Hr1 & E1). destruct (IH _ o r1 p Hr1) as (r' & Hr' & E). exists r'. split; [exact Hr'|].
  rewrite E, E1. reflexivity.
Qed.
Lemma run_seng ps : forall w, h_seng (w_heap (fst (run w ps))) = h_seng (w_heap w).
Proof. induction ps as [|q ps IH]; intros w; [reflexivity|]. rewrite run_cons. cbn [fst]. rewrite IH. apply step_seng. Qed.
Lemma new_default w V SRF iq sg db fi fe i0 o : snd (step w (ONew V SRF iq sg db fi fe i0)) = RetId o ->
  exists r, obj (w_heap (fst (step w (ONew V SRF iq sg db fi fe i0)))) o = Ok r /\ forall p, r_def r p = DStr (ESym (pname_str p)).
Proof.
  cbn [step]. rewrite fst_as_out. pose proof (new_objs V SRF iq sg db fi fe i0 w) as H.
  unfold as_out at 1. destruct (new_rt1 V SRF iq sg db fi fe i0 w) as [w' [m|e]]; [|discriminate].
  cbn [snd fst]. intros E. injection E as <-. destruct H as (v & s & _ & _ & -> & Ho & _).
  eexists. split; [apply (obj_app_last _ _ _ Ho)|]. reflexivity.
Qed.

Section Final.
  Context (w : world) (o : nat) (r : rt1) (p : pname) (H : PC w) (Hr : obj (w_heap w) o = Ok r).
  Lemma read_step : snd (step w (OReadParam o p)) = match snd (param_val o p w) with Ok a => RetArr a | Err e => Raised e end.
  Proof. cbn [step]. unfold as_out. destruct (param_val o p w) as [w' [a|e]]; reflexivity. Qed.
  Lemma read_str e pd : r_def r p = DStr e -> params_nd (w_heap w) r = Ok pd ->
    (h_seng (w_heap w) = true /\ syms e <> [] \/ h_seng (w_heap w) = false /\ h_be (w_heap w) = Sympy) ->
    evaluates pd e (snd (step w (OReadParam o p))).
  Proof.
    intros Hd Hp U. rewrite read_step.
    assert (ND : no_dup_b (free_syms e) = true) by (apply no_dup_b_NoDup, NoDup_dedup).
    destruct (funcs_val o p w r H Hr) as (w' & H' & Hh & [(f & Hf & F)|(er & Hf & F)]).
    - rewrite Hd in F. cbn [fun_of dsyms] in F. destruct F as (be & c & -> & L).
      eapply eval_param_str; try eassumption. apply lambdify_Ok in L. destruct L as (-> & _ & L). exists be. split; [reflexivity|].
      intros ->. destruct (L eq_refl) as [L1 _]. destruct U as [[_ U]|[U _]]; [exact U|congruence].
    - exfalso. unfold funcs_res in F. rewrite Hd in F. cbn [dsyms] in F. unfold lambdify in F. rewrite ND in F.
      destruct (h_be (w_heap w)); cbn [rbind] in F; [discriminate|].
      destruct U as [[U _]|[_ U]]; [|discriminate]. rewrite U in F. cbn [negb] in F.
      replace (subset_b _ _) with true in F; [discriminate|]. symmetry. apply subset_b_incl. unfold all_syms. cbn [flat_map].
      rewrite app_nil_r. apply dedup_incl.
  Qed.
  Lemma read_val v : r_def r p = DVal v ->
    snd (step w (OReadParam o p)) = match deref (w_heap w) v with Ok a => RetArr a | Err e => Raised e end.
  Proof. intros Hd. rewrite read_step. now rewrite (eval_param_val o p w r v Hr H Hd). Qed.
End Final.
