(** Calls of compiled functions (helpers.py:50-92) depend on the parameter dictionary only as a mapping:
    neither its order nor entries for unused names matter, as long as the shapes broadcast to the same. *)
From Coq Require Import FunctionalExtensionality Permutation.
From Verif Require Export ParamRead FnKeys.
Open Scope string_scope.
Open Scope nat_scope.
Open Scope list_scope.

Definition look (vars : list string) (vals : list (nd xr)) (s : string) : option (nd xr) :=
  match find (fun va => String.eqb s (fst va)) (combine vars vals) with Some (_, a) => Some a | None => None end.
Lemma env_look vars vals i s : env_of vars vals i s = match look vars vals s with Some a => bget a i | None => NaN end.
Proof.
  unfold look. revert vals. induction vars as [|v vars IH]; intros [|a vals]; cbn [env_of combine find]; try reflexivity.
  cbn [fst]. destruct (String.eqb s v); [reflexivity|]. apply IH.
Qed.
Lemma shape_look vars vals s : shape_of_sym vars vals s = match look vars vals s with Some a => shp a | None => [] end.
Proof. unfold shape_of_sym, look. destruct (find _ _) as [[v a]|]; reflexivity. Qed.
Lemma look_dict (kw : dict (nd xr)) s : look (dkeys kw) (dvals kw) s = dget kw s.
Proof.
  unfold look. induction kw as [|[k a] kw IH]; [reflexivity|]. cbn [dkeys dvals map fst snd combine find dget].
  destruct (String.eqb s k); [reflexivity|]. exact IH.
Qed.
Lemma look_app pre pos vars vals s : length pre = length pos ->
  look (pre ++ vars) (pos ++ vals) s = match look pre pos s with Some a => Some a | None => look vars vals s end.
Proof.
  unfold look. revert pos. induction pre as [|v pre IH]; intros [|a pos] H; try discriminate; [reflexivity|].
  cbn [app combine find fst]. destruct (String.eqb s v); [reflexivity|]. apply IH. now injection H.
Qed.
Lemma look_in pre pos s : length pre = length pos -> In s pre -> look pre pos s <> None.
Proof.
  unfold look. revert pos. induction pre as [|v pre IH]; intros [|a pos] H I; try discriminate; [destruct I|].
  cbn [combine find fst]. destruct (String.eqb_spec s v) as [->|N]; [discriminate|]. apply IH; [now injection H|]. destruct I; congruence.
Qed.
Lemma look_bt sh vars vals s : look vars (map (broadcast_to sh) vals) s = option_map (broadcast_to sh) (look vars vals s).
Proof.
  unfold look. revert vals. induction vars as [|v vars IH]; intros [|a vals]; try reflexivity.
  cbn [map combine find fst]. destruct (String.eqb s v); [reflexivity|]. apply IH.
Qed.

Lemma rmap_dict (kw d : dict (nd xr)) e : NoDup (dkeys kw) -> (forall k a, In (k, a) kw -> dget d k = Some a) ->
  rmap (fun v => match dget d v with Some a => Ok a | None => @Err (nd xr) e end) (dkeys kw) = Ok (dvals kw).
Proof.
  induction kw as [|[k a] kw IH]; intros N H; [reflexivity|]. cbn [dkeys dvals map fst snd rmap].
  rewrite (H k a (or_introl eq_refl)). cbn [rbind]. inversion N; subst.
  unfold dkeys, dvals in IH. rewrite IH; [reflexivity|assumption|]. intros; apply H. now right.
Qed.
Lemma dget_own (kw : dict (nd xr)) : NoDup (dkeys kw) -> forall k a, In (k, a) kw -> dget kw k = Some a.
Proof.
  induction kw as [|[k' a'] kw IH]; intros N k a H; [destruct H|]. cbn [dget]. inversion N as [|? ? N1 N2]; subst.
  destruct H as [H|H].
  - inversion H; subst. now rewrite String.eqb_refl.
  - destruct (String.eqb_spec k k') as [->|]; [|now apply IH]. exfalso. apply N1. now apply (in_map fst) in H.
Qed.
Lemma skipn_pre {B} (pre vars : list string) (pos : list B) : length pos = length pre -> skipn (length pos) (pre ++ vars) = vars.
Proof. intros ->. rewrite skipn_app, skipn_all, Nat.sub_diag. reflexivity. Qed.
Lemma NoDup_tail (pre l : list string) : NoDup (pre ++ l) -> NoDup l.
Proof. induction pre as [|x pre IH]; [auto|]. intros H. inversion H; subst. auto. Qed.

Lemma bind_sympy_full pre pos (kw : dict (nd xr)) : length pos = length pre -> NoDup (dkeys kw) ->
  bind_sympy (pre ++ dkeys kw) pos kw = Ok (pos ++ dvals kw).
Proof.
  intros L N. unfold bind_sympy. replace (length (pre ++ dkeys kw) <? length pos) with false
    by (symmetry; apply Nat.ltb_ge; rewrite app_length; lia).
  rewrite skipn_pre by assumption. replace (forallb _ (dkeys kw)) with true.
  2:{ symmetry. apply forallb_forall. intros x Hx. now apply mem_In. }
  cbn [negb]. rewrite (rmap_dict kw kw); [reflexivity|assumption|]. now apply dget_own.
Qed.
Lemma bind_symengine_full pre pos (kw : dict (nd xr)) : length pos = length pre -> NoDup (dkeys kw) ->
  bind_symengine (pre ++ dkeys kw) pos kw = broadcast_arrays (pos ++ dvals kw).
Proof.
  intros L N. unfold bind_symengine. rewrite skipn_pre by assumption. rewrite (rmap_dict kw kw); [|assumption|now apply dget_own].
  cbn [rbind]. unfold broadcast_arrays. destruct (bc_shapes _) as [s|]; [|reflexivity]. cbn [rbind].
  rewrite map_length, !app_length, L. unfold dvals, dkeys. rewrite !map_length, Nat.eqb_refl. reflexivity.
Qed.

Section Agree.
  Context (be : backend) (pre : list string) (es : list expr) (kw kw' : dict (nd xr)).
  Hypothesis Npre : pre <> [].
  Hypothesis N : NoDup (pre ++ dkeys kw).
  Hypothesis N' : NoDup (pre ++ dkeys kw').
  Hypothesis Same : forall s, In s (all_syms es) -> In s pre \/ dget kw s = dget kw' s.

  Lemma subset_same : subset_b (all_syms es) (pre ++ dkeys kw) = subset_b (all_syms es) (pre ++ dkeys kw').
  Proof.
    assert (M : forall s, In s (all_syms es) -> (In s (pre ++ dkeys kw) <-> In s (pre ++ dkeys kw'))).
    { intros s Hs. rewrite !in_app_iff. destruct (Same s Hs) as [X|X]; [tauto|].
      assert (In s (dkeys kw) <-> In s (dkeys kw')); [|tauto].
      split; intros H; apply dget_in in H; destruct H as [v H]; [rewrite X in H|rewrite <- X in H];
        match type of H with dget ?d s = _ => destruct (in_dec string_dec s (dkeys d)) as [|Nn]; [assumption|]; apply dget_None_notin in Nn; congruence end. }
    destruct (subset_b _ (pre ++ dkeys kw)) eqn:E, (subset_b _ (pre ++ dkeys kw')) eqn:E'; auto; exfalso.
    - apply subset_b_incl in E. assert (X : subset_b (all_syms es) (pre ++ dkeys kw') = true); [|congruence].
      apply subset_b_incl. intros s Hs. apply M; auto.
    - apply subset_b_incl in E'. assert (X : subset_b (all_syms es) (pre ++ dkeys kw) = true); [|congruence].
      apply subset_b_incl. intros s Hs. apply M; auto.
  Qed.
  Lemma look_same pos s : length pos = length pre -> In s (all_syms es) ->
    look (pre ++ dkeys kw) (pos ++ dvals kw) s = look (pre ++ dkeys kw') (pos ++ dvals kw') s.
  Proof.
    intros L Hs. rewrite !look_app by now symmetry. destruct (look pre pos s) eqn:E; [reflexivity|].
    rewrite !look_dict. destruct (Same s Hs) as [X|X]; [|exact X]. exfalso. revert E. now apply look_in.
  Qed.
  Lemma eval_sympy_same e vals vals' : In e es ->
    (forall s, In s (all_syms es) -> look (pre ++ dkeys kw) vals s = look (pre ++ dkeys kw') vals' s) ->
    eval_sympy (pre ++ dkeys kw) vals e = eval_sympy (pre ++ dkeys kw') vals' e.
  Proof.
    intros He H. assert (I : forall s, In s (syms e) -> In s (all_syms es)).
    { intros s Hs. unfold all_syms. apply in_flat_map. eauto. }
    unfold eval_sympy. rewrite (map_ext_in (shape_of_sym (pre ++ dkeys kw) vals) (shape_of_sym (pre ++ dkeys kw') vals') (syms e)).
    2:{ intros s Hs. rewrite !shape_look, H by auto. reflexivity. }
    destruct (bc_shapes _) as [sh|]; [|reflexivity]. do 2 f_equal. extensionality i. apply evalX_ext. intros s Hs. rewrite !env_look, H by auto. reflexivity.
  Qed.
  Lemma rmap_sympy_same vals vals' :
    (forall s, In s (all_syms es) -> look (pre ++ dkeys kw) vals s = look (pre ++ dkeys kw') vals' s) ->
    rmap (eval_sympy (pre ++ dkeys kw) vals) es = rmap (eval_sympy (pre ++ dkeys kw') vals') es.
  Proof.
    intros H. assert (G : forall l, incl l es -> rmap (eval_sympy (pre ++ dkeys kw) vals) l = rmap (eval_sympy (pre ++ dkeys kw') vals') l).
    { induction l as [|e l IH]; intros I; [reflexivity|]. cbn [rmap]. rewrite (eval_sympy_same e vals vals') by (auto; apply I; now left).
      rewrite IH; [reflexivity|]. intros x Hx. apply I. now right. }
    apply G, incl_refl.
  Qed.
  Lemma eval_symengine_same vals vals' :
    match vals with [] => [] | a :: _ => shp a end = match vals' with [] => [] | a :: _ => shp a end ->
    (forall s, In s (all_syms es) -> look (pre ++ dkeys kw) vals s = look (pre ++ dkeys kw') vals' s) ->
    map (eval_symengine (pre ++ dkeys kw) vals) es = map (eval_symengine (pre ++ dkeys kw') vals') es.
  Proof.
    intros Hs H. apply map_ext_in. intros e He. unfold eval_symengine. rewrite Hs. f_equal. extensionality i. apply evalX_ext.
    intros s Hx. rewrite !env_look, H; [reflexivity|]. unfold all_syms. apply in_flat_map. eauto.
  Qed.
  Lemma lambdify_same seng : 
    match lambdify be seng (pre ++ dkeys kw) es with
    | Ok k => k = mk_comp be (pre ++ dkeys kw) es /\ lambdify be seng (pre ++ dkeys kw') es = Ok (mk_comp be (pre ++ dkeys kw') es)
    | Err e => lambdify be seng (pre ++ dkeys kw') es = Err e
    end.
  Proof.
    apply no_dup_b_NoDup in N, N'. unfold lambdify. rewrite N, N'. destruct be; [auto|]. destruct seng; cbn [negb]; [|reflexivity].
    rewrite subset_same. destruct (subset_b _ _); auto.
  Qed.
  Lemma vars_cons vars : exists v l, pre ++ vars = v :: l.
  Proof. destruct pre as [|v l]; [congruence|]. exists v, (l ++ vars). reflexivity. Qed.
  (** four positional angles, the parameters by keyword (_scatter.py:149-175) *)
  Lemma call_same pos : length pos = length pre ->
    bc_shapes (map shp (pos ++ dvals kw)) = bc_shapes (map shp (pos ++ dvals kw')) ->
    call (mk_comp be (pre ++ dkeys kw) es) pos kw = call (mk_comp be (pre ++ dkeys kw') es) pos kw'.
  Proof.
    intros L Hb. pose proof (NoDup_tail _ _ N) as D. pose proof (NoDup_tail _ _ N') as D'.
    unfold call. cbn [c_be c_vars c_exprs]. destruct be.
    - rewrite !bind_sympy_full by assumption. cbn [rbind]. rewrite subset_same. destruct (subset_b _ _); [|reflexivity].
      apply rmap_sympy_same. intros s. now apply look_same.
    - rewrite !bind_symengine_full by assumption.
      destruct (vars_cons (dkeys kw)) as (v & l & E). destruct (vars_cons (dkeys kw')) as (v' & l' & E'). rewrite E, E'. rewrite <- E, <- E'.
      unfold broadcast_arrays. rewrite <- Hb. destruct (bc_shapes (map shp (pos ++ dvals kw))) as [sh|]; [|reflexivity]. cbn [rbind]. f_equal.
      apply eval_symengine_same.
      + destruct pos as [|p pos]; [|reflexivity]. destruct pre; [congruence|discriminate].
      + intros s Hs. rewrite !look_bt, look_same by assumption. reflexivity.
  Qed.
  (** everything positional, already broadcast (_calc.py:1089-1141) *)
  Lemma call_same_pos pos sh : length pos = length pre ->
    call (mk_comp be (pre ++ dkeys kw) es) (map (broadcast_to sh) (pos ++ dvals kw)) [] =
    call (mk_comp be (pre ++ dkeys kw') es) (map (broadcast_to sh) (pos ++ dvals kw')) [].
  Proof.
    intros L.
    assert (Z : forall d : dict (nd xr), length (map (broadcast_to sh) (pos ++ dvals d)) = length (pre ++ dkeys d)).
    { intros d. rewrite map_length, !app_length, L. unfold dvals, dkeys. now rewrite !map_length. }
    assert (Zs : forall d : dict (nd xr), skipn (length (map (broadcast_to sh) (pos ++ dvals d))) (pre ++ dkeys d) = []).
    { intros d. apply skipn_all2. rewrite Z. lia. }
    unfold call. cbn [c_be c_vars c_exprs]. destruct be.
    - unfold bind_sympy. rewrite !Z. rewrite !Nat.ltb_irrefl. rewrite <- !Z, !Zs. cbn [dkeys map forallb negb rmap rbind]. rewrite !app_nil_r.
      rewrite subset_same. destruct (subset_b _ _); [|reflexivity].
      apply rmap_sympy_same. intros s Hs. rewrite !look_bt, look_same by assumption. reflexivity.
    - destruct (vars_cons (dkeys kw)) as (v & l & E). destruct (vars_cons (dkeys kw')) as (v' & l' & E'). rewrite E, E'. rewrite <- E, <- E'.
      unfold bind_symengine. rewrite !Zs. cbn [rmap rbind]. rewrite !app_nil_r. unfold broadcast_arrays.
      destruct pos as [|p pos]; [destruct pre; [congruence|discriminate]|].
      assert (Y : forall d : dict (nd xr), bc_shapes (map shp (map (broadcast_to sh) ((p :: pos) ++ dvals d))) = bc_shapes (sh :: nil)).
      { intros d. rewrite map_map. cbn [shp broadcast_to]. apply bc_shapes_set.
        - intros x Hx. apply in_map_iff in Hx. destruct Hx as (y & <- & _). now left.
        - intros x [<-|[]]. cbn [app map]. now left. }
      rewrite !Y. destruct (bc_shapes (sh :: nil)) as [s2|]; [|reflexivity]. cbn [rbind]. rewrite !map_length, <- !Z, !map_length, !Nat.eqb_refl.
      cbn [rbind]. f_equal. apply eval_symengine_same; [reflexivity|]. intros s Hs. rewrite !look_bt, look_same by assumption. reflexivity.
  Qed.
End Agree.
