(** Elementwise reading of the array operations: broadcasting, compiled functions, kernels. *)
From Verif Require Export Kernels.
Open Scope nat_scope.

(** [sub s r]: an array of shape [s] is read unambiguously from positions of shape [r] *)
Definition sub (s r : list nat) : Prop := forall idx, proj s (proj r idx) = proj s idx.
Lemma sub_refl s : sub s s. Proof. intros i. apply proj_self. Qed.
Lemma sub_trans s t r : sub s t -> sub t r -> sub s r.
Proof. intros H1 H2 i. rewrite <- (H1 (proj r i)), H2. apply H1. Qed.
Lemma sub_nil s : sub [] s. Proof. intros i. reflexivity. Qed.
Lemma sub_l s t r : bc_shape s t = Some r -> sub s r.
Proof. intros H i. eapply proj_proj_l; eassumption. Qed.
Lemma sub_r s t r : bc_shape s t = Some r -> sub t r.
Proof. intros H i. eapply proj_proj_r; eassumption. Qed.

Lemma bc_shapes_acc l : forall a r,
  fold_left (fun acc s => match acc with Some a => bc_shape a s | None => None end) l (Some a) = Some r ->
  sub a r /\ forall s, In s l -> sub s r.
Proof.
  induction l as [|s l IH]; intros a r H; simpl in H.
  - inversion H; subst. split; [apply sub_refl|intros ? []].
  - destruct (bc_shape a s) as [b|] eqn:E.
    + destruct (IH b r H) as [H1 H2]. split.
      * eapply sub_trans; [eapply sub_l; eassumption|assumption].
      * intros t [<-|Ht]; [|auto]. eapply sub_trans; [eapply sub_r; eassumption|assumption].
    + exfalso. clear -H. induction l as [|s l IH]; simpl in H; [discriminate|auto].
Qed.
Lemma bc_shapes_sub l r s : bc_shapes l = Some r -> In s l -> sub s r.
Proof. intros H Hs. unfold bc_shapes in H. apply bc_shapes_acc in H. now apply H. Qed.

Lemma bget_mk {A} s (f : list nat -> A) idx : bget (mk_nd s f) idx = f (proj s idx).
Proof. reflexivity. Qed.
Lemma bget_broadcast_to {A} s (a : nd A) idx : sub (shp a) s -> bget (broadcast_to s a) idx = bget a idx.
Proof. intros H. unfold broadcast_to. rewrite bget_mk. unfold bget. now rewrite H. Qed.
Lemma bget_proj {A} (a : nd A) s idx : sub (shp a) s -> bget a (proj s idx) = bget a idx.
Proof. intros H. unfold bget. now rewrite H. Qed.

Lemma broadcast_arrays_spec {A} (l l' : list (nd A)) :
  broadcast_arrays l = Ok l' -> exists s, bc_shapes (map shp l) = Some s /\ l' = map (broadcast_to s) l /\
    (forall a, In a l -> sub (shp a) s).
Proof.
  unfold broadcast_arrays. destruct (bc_shapes (map shp l)) as [s|] eqn:E; [|discriminate].
  intros H; inversion H; subst. exists s. repeat split; auto.
  intros a Ha. eapply bc_shapes_sub; [eassumption|]. now apply in_map.
Qed.

(** ** Evaluation depends only on the symbols that occur *)
Lemma evalX_ext e f g : (forall s, In s (syms e) -> f s = g s) -> evalX f e = evalX g e.
Proof.
  induction e; simpl; intros H; auto;
    try (rewrite IHe by auto; reflexivity);
    rewrite IHe1, IHe2 by (intros; apply H; apply in_or_app; auto); reflexivity.
Qed.
Lemma evalR_ext e f g : (forall s, In s (syms e) -> f s = g s) -> evalR f e = evalR g e.
Proof.
  induction e; simpl; intros H; auto;
    try (rewrite IHe by auto; reflexivity);
    rewrite IHe1, IHe2 by (intros; apply H; apply in_or_app; auto); reflexivity.
Qed.
Lemma wd_ext e f g : (forall s, In s (syms e) -> f s = g s) -> wd f e -> wd g e.
Proof.
  induction e; simpl; intros H; auto;
    try (intros [W1 W2]; split; [apply IHe1|apply IHe2]; auto; intros; apply H; apply in_or_app; auto).
  - intros (W1 & W2 & W3). split; [apply IHe1; auto; intros; apply H; apply in_or_app; auto|].
    split; [apply IHe2; auto; intros; apply H; apply in_or_app; auto|].
    rewrite <- (evalR_ext e2 f g); [assumption|]. intros; apply H; apply in_or_app; auto.
  - intros [W1 W2]. split; [auto|]. rewrite <- (evalR_ext e f g) by auto. assumption.
  - intros [W1 W2]. split; [auto|]. rewrite <- (evalR_ext e f g) by auto. assumption.
  - intros [W1 W2]. split; [auto|]. rewrite <- (evalR_ext e f g) by auto. assumption.
Qed.
(** where everything is defined, numpy's value is the mathematical value *)
Lemma evalX_Fin e f g : (forall s, In s (syms e) -> f s = Fin (g s)) -> wd g e -> evalX f e = Fin (evalR g e).
Proof.
  induction e; simpl; intros H W; auto;
    try (rewrite IHe by tauto; simpl; reflexivity);
    try (rewrite IHe1, IHe2 by (try tauto; intros; apply H; apply in_or_app; auto); reflexivity).
  - rewrite IHe1, IHe2 by (try tauto; intros; apply H; apply in_or_app; auto). apply xdiv_Fin. tauto.
  - rewrite IHe by auto. apply xpow_Fin.
  - destruct W as [W1 W2]. rewrite IHe by auto. simpl. destruct (Rlt_dec _ _); [lra|reflexivity].
  - destruct W as [W1 W2]. rewrite IHe by auto. simpl. destruct (Rlt_dec _ _); [lra|reflexivity].
  - destruct W as [W1 W2]. rewrite IHe by auto. now apply xlog_Fin.
Qed.

(** ** Calling a compiled function *)
Lemma env_of_map vars vals s idx idx' :
  (forall a, In a vals -> bget a idx = bget a idx') -> env_of vars vals idx s = env_of vars vals idx' s.
Proof.
  revert vals. induction vars as [|v vars IH]; intros [|a vals] H; simpl; auto.
  destruct (String.eqb s v); [apply H; now left|]. apply IH. intros b Hb. apply H. now right.
Qed.
Lemma env_of_broadcast vars (vals : list (nd xr)) sh s idx :
  (forall a, In a vals -> sub (shp a) sh) ->
  env_of vars (map (broadcast_to sh) vals) idx s = env_of vars vals idx s.
Proof.
  revert vals. induction vars as [|v vars IH]; intros [|a vals] H; cbn [env_of map]; auto.
  rewrite bget_broadcast_to by (apply H; now left).
  rewrite IH by (intros b Hb; apply H; now right). reflexivity.
Qed.
Lemma env_of_shape vars (vals : list (nd xr)) sh s idx : sub (shape_of_sym vars vals s) sh ->
  env_of vars vals (proj sh idx) s = env_of vars vals idx s.
Proof.
  unfold shape_of_sym. revert vals. induction vars as [|v vars IH]; intros [|a vals] H; simpl in *; auto.
  destruct (String.eqb s v); [now apply bget_proj|]. now apply IH.
Qed.

Lemma F2_length {A B} (P : A -> B -> Prop) l m : Forall2 P l m -> length l = length m.
Proof. induction 1; simpl; auto. Qed.

Lemma F2_impl {A B} (P Q : A -> B -> Prop) l m :
  (forall a b, P a b -> Q a b) -> Forall2 P l m -> Forall2 Q l m.
Proof. induction 2; auto. Qed.

(** the arguments a call binds to the variables, before broadcasting *)
Definition bound (vars : list string) (pos : list (nd xr)) (kw : dict (nd xr)) (vals : list (nd xr)) : Prop :=
  exists vs, vals = pos ++ vs /\ length pos <= length vars /\
    Forall2 (fun v a => dget kw v = Some a) (skipn (length pos) vars) vs.

Lemma rmap_Forall2 {A B} (f : A -> res B) l l' : rmap f l = Ok l' -> Forall2 (fun x y => f x = Ok y) l l'.
Proof.
  revert l'. induction l as [|x l IH]; intros l' H; simpl in H; [inversion H; constructor|].
  destruct (f x) as [y|] eqn:E; [|discriminate]. simpl in H. destruct (rmap f l) as [ys|]; [|discriminate].
  inversion H; subst. constructor; auto.
Qed.
Lemma lookup_Forall2 (kw : dict (nd xr)) e vars vs :
  rmap (fun v => match dget kw v with Some a => Ok a | None => Err e end) vars = Ok vs ->
  Forall2 (fun v a => dget kw v = Some a) vars vs.
Proof.
  intros H. apply rmap_Forall2 in H. induction H; constructor; auto. destruct (dget kw x); congruence.
Qed.

(** one element of the value of every compiled expression *)
Lemma call_spec c pos kw l : call c pos kw = Ok l ->
  exists vals, bound (c_vars c) pos kw vals /\ length vals = length (c_vars c) /\
   Forall2 (fun e a => forall idx, bget a idx = evalX (env_of (c_vars c) vals idx) e) (c_exprs c) l.
Proof.
  unfold call. destruct (c_be c).
  - intros H. destruct (bind_sympy (c_vars c) pos kw) as [vals|] eqn:Eb; [|discriminate]. simpl in H.
    destruct (subset_b _ _); [|discriminate].
    assert (B : bound (c_vars c) pos kw vals /\ length vals = length (c_vars c)).
    { unfold bind_sympy in Eb. destruct (Nat.ltb_spec (length (c_vars c)) (length pos)); [discriminate|].
      destruct (negb _); [discriminate|].
      destruct (rmap _ _) as [vs|] eqn:Er; [|discriminate]. simpl in Eb. inversion Eb; subst vals.
      apply lookup_Forall2 in Er. split; [exists vs; auto|].
      apply F2_length in Er. rewrite skipn_length in Er. rewrite app_length. lia. }
    exists vals. split; [apply B|]. split; [apply B|].
    apply rmap_Forall2 in H. eapply F2_impl; [|exact H]. intros e a He idx. unfold eval_sympy in He.
    destruct (bc_shapes _) as [s|] eqn:Es; [|discriminate]. inversion He; subst a. rewrite bget_mk.
    apply evalX_ext. intros x Hx. apply env_of_shape. eapply bc_shapes_sub; [eassumption|].
    apply in_map_iff. exists x. auto.
  - destruct (c_vars c) as [|v0 vars0] eqn:Ev; [discriminate|]. rewrite <- Ev in *. clear Ev.
    intros H. destruct (bind_symengine (c_vars c) pos kw) as [vals|] eqn:Eb; [|discriminate]. simpl in H.
    inversion H; subst l. unfold bind_symengine in Eb.
    destruct (rmap _ _) as [vs|] eqn:Er; [|discriminate]. simpl in Eb.
    destruct (broadcast_arrays (pos ++ vs)) as [args|] eqn:Ea; [|discriminate]. simpl in Eb.
    destruct (Nat.eqb_spec (length args) (length (c_vars c))) as [El|]; [|discriminate]. inversion Eb; subst args.
    destruct (broadcast_arrays_spec _ _ Ea) as (s & Es & -> & Hs). rewrite map_length in El.
    apply lookup_Forall2 in Er.
    exists (pos ++ vs). split; [exists vs; split; [reflexivity|]; split; [|assumption]|split; [assumption|]].
    { rewrite app_length in El. lia. }
    clear H.
    induction (c_exprs c) as [|e es IH]; simpl; constructor; [|exact IH].
    intros idx. unfold eval_symengine. rewrite bget_mk. apply evalX_ext. intros x _.
    rewrite env_of_broadcast by assumption. apply env_of_map. intros a Ha.
    assert (X : sub (shp a) match map (broadcast_to s) (pos ++ vs) with [] => [] | a0 :: _ => shp a0 end).
    { destruct (pos ++ vs); [destruct Ha|]. simpl. now apply Hs. }
    now apply bget_proj.
Qed.

Lemma lambdify_Ok be seng vars es c : lambdify be seng vars es = Ok c ->
  c = mk_comp be vars es /\ no_dup_b vars = true /\
  (be = Symengine -> seng = true /\ subset_b (all_syms es) vars = true).
Proof.
  unfold lambdify. destruct be.
  - destruct (no_dup_b vars); [|discriminate]. intros H; inversion H. repeat split; congruence.
  - destruct seng; [|discriminate]. simpl. destruct (no_dup_b vars); [|discriminate]. simpl.
    destruct (subset_b _ _); [|discriminate]. intros H; inversion H; auto.
Qed.
Lemma call1_spec c pos kw e a : c_exprs c = [e] -> call1 c pos kw = Ok a ->
  exists vals, bound (c_vars c) pos kw vals /\ length vals = length (c_vars c) /\
   forall idx, bget a idx = evalX (env_of (c_vars c) vals idx) e.
Proof.
  intros Hc H. unfold call1 in H. destruct (call c pos kw) as [l|] eqn:E; [|discriminate]. simpl in H.
  destruct l as [|b [|]]; try discriminate. inversion H; subst b.
  destruct (call_spec _ _ _ _ E) as (vals & B & L & F). rewrite Hc in F. inversion F; subst. exists vals. auto.
Qed.

(** by name: the value bound to a variable *)
Lemma env_of_kw vars vs (kw : dict (nd xr)) s idx :
  Forall2 (fun v a => dget kw v = Some a) vars vs -> In s vars ->
  exists a, dget kw s = Some a /\ env_of vars vs idx s = bget a idx.
Proof.
  intros H Hs. induction H as [|v a vars vs Hv Hrest IH]; [destruct Hs|]. simpl.
  destruct (String.eqb_spec s v) as [->|Hne]; [eauto|]. apply IH. destruct Hs; congruence.
Qed.
Lemma env_of_app_r vars1 vals1 vars2 vals2 idx s : length vars1 = length vals1 -> ~ In s vars1 ->
  env_of (vars1 ++ vars2) (vals1 ++ vals2) idx s = env_of vars2 vals2 idx s.
Proof.
  revert vals1. induction vars1 as [|v vars1 IH]; intros [|a vals1] L H; simpl in *; try discriminate; auto.
  destruct (String.eqb_spec s v); [exfalso; apply H; left; congruence|]. apply IH; [lia|tauto].
Qed.
Lemma env_of_app_l vars1 vals1 vars2 vals2 idx s : length vars1 = length vals1 -> In s vars1 ->
  env_of (vars1 ++ vars2) (vals1 ++ vals2) idx s = env_of vars1 vals1 idx s.
Proof.
  revert vals1. induction vars1 as [|v vars1 IH]; intros [|a vals1] L H; simpl in *; try discriminate; [destruct H|].
  destruct (String.eqb_spec s v); [reflexivity|]. apply IH; [lia|]. destruct H; congruence.
Qed.

Lemma In_dedup x l : In x (dedup l) <-> In x l.
Proof.
  induction l as [|y l IH]; simpl; [tauto|]. destruct (mem y l) eqn:E.
  - rewrite IH. apply mem_In in E. split; [auto|]. intros [->|]; auto.
  - simpl. rewrite IH. tauto.
Qed.
Lemma NoDup_dedup l : NoDup (dedup l).
Proof.
  induction l as [|y l IH]; simpl; [constructor|]. destruct (mem y l) eqn:E; [assumption|].
  constructor; [|assumption]. rewrite In_dedup. now apply mem_not_In.
Qed.
Lemma no_dup_b_NoDup l : no_dup_b l = true <-> NoDup l.
Proof.
  induction l as [|x l IH]; simpl; [split; [constructor|reflexivity]|].
  rewrite andb_true_iff, negb_true_iff, IH, mem_not_In. split.
  - intros [H1 H2]. now constructor.
  - intros H. inversion H; auto.
Qed.
Lemma subset_b_incl l m : subset_b l m = true <-> incl l m.
Proof.
  unfold subset_b. rewrite forallb_forall. split; intros H x Hx; apply mem_In; now apply H.
Qed.

(** ** Kernels at one element *)
Ltac rb H := match type of H with rbind ?x _ = Ok _ =>
  let E := fresh "E" in destruct x eqn:E; [cbn [rbind] in H|discriminate H] end.

Definition x_atten (tau mu0 muex : xr) : xr := xexp (xsub (xopp (xdiv tau mu0)) (xdiv tau muex)).
Definition x_bare (i0 mu0 srf : xr) : xr := xmul (xmul i0 mu0) srf.
Definition x_mix (bsf a b : xr) : xr := xadd (xmul (xsub (Fin 1) bsf) a) (xmul bsf b).
Definition x_surface (i0 mu0 muex srf tau norm bsf : xr) : xr :=
  xmul norm (x_mix bsf (xmul (x_atten tau mu0 muex) (x_bare i0 mu0 srf)) (x_bare i0 mu0 srf)).
Definition x_vol (i0 om mu0 muex tau v : xr) : xr :=
  xmul (xmul (xdiv (xmul (xmul i0 om) mu0) (xadd mu0 muex)) (xsub (Fin 1) (x_atten tau mu0 muex))) v.
Definition x_volume (i0 om mu0 muex tau v bsf : xr) : xr :=
  xmul (xsub (Fin 1) bsf) (x_vol i0 om mu0 muex tau v).
Definition x_interaction (i0 mu0 muex om tau norm bsf f1 f2 : xr) : xr :=
  xmul (xmul norm (xsub (Fin 1) bsf))
       (xmul (xmul (xmul i0 mu0) om)
             (xadd (xmul (xexp (xdiv (xopp tau) muex)) f1) (xmul (xexp (xdiv (xopp tau) mu0)) f2))).

Ltac bg := repeat match goal with
  | H : map2 _ _ _ = Ok ?c |- context [bget ?c ?i] => rewrite (bget_map2 _ _ _ _ i H)
  end.
Ltac kernel := intros; repeat match goal with H : rbind _ _ = Ok _ |- _ => rb H end;
  repeat match goal with H : Ok _ = Ok _ |- _ => inversion H; subst; clear H end;
  unfold nadd, nsub, nmul, ndiv in *; bg; rewrite ?bget_map1, ?bget_scalar; bg; try reflexivity.

Lemma k_bare_el i0 mu0 srf a idx : k_bare i0 mu0 srf = Ok a ->
  bget a idx = x_bare (bget i0 idx) (bget mu0 idx) (bget srf idx).
Proof. unfold k_bare. kernel. Qed.
Lemma k_atten_el tau mu0 muex a idx : k_atten tau mu0 muex = Ok a ->
  bget a idx = x_atten (bget tau idx) (bget mu0 idx) (bget muex idx).
Proof.
  unfold k_atten. kernel. unfold nexp. rewrite bget_map1. bg. unfold nneg. rewrite bget_map1. bg. reflexivity.
Qed.
Lemma k_mix_el bsf a b c idx : k_mix bsf a b = Ok c ->
  bget c idx = x_mix (bget bsf idx) (bget a idx) (bget b idx).
Proof. unfold k_mix. kernel. Qed.
Lemma k_surface_el i0 mu0 muex srf tau norm bsf a idx :
  k_surface i0 mu0 muex srf tau norm bsf = Ok a ->
  bget a idx = x_surface (bget i0 idx) (bget mu0 idx) (bget muex idx) (bget srf idx) (bget tau idx)
                 (bget norm idx) (bget bsf idx).
Proof.
  unfold k_surface. kernel. rewrite (k_mix_el _ _ _ _ idx E2). bg.
  rewrite (k_atten_el _ _ _ _ idx E0), (k_bare_el _ _ _ _ idx E). reflexivity.
Qed.
Lemma k_vol_el i0 om mu0 muex tau v a idx : k_vol i0 om mu0 muex tau v = Ok a ->
  bget a idx = x_vol (bget i0 idx) (bget om idx) (bget mu0 idx) (bget muex idx) (bget tau idx) (bget v idx).
Proof. unfold k_vol. kernel. rewrite (k_atten_el _ _ _ _ idx E3). reflexivity. Qed.
Lemma k_volume_el i0 om mu0 muex tau v bsf a idx : k_volume i0 om mu0 muex tau v bsf = Ok a ->
  bget a idx = x_volume (bget i0 idx) (bget om idx) (bget mu0 idx) (bget muex idx) (bget tau idx) (bget v idx)
                 (bget bsf idx).
Proof. unfold k_volume. kernel. rewrite (k_vol_el _ _ _ _ _ _ _ idx E). reflexivity. Qed.
Lemma k_interaction_el i0 mu0 muex om tau norm bsf f1 f2 a idx :
  k_interaction i0 mu0 muex om tau norm bsf f1 f2 = Ok a ->
  bget a idx = x_interaction (bget i0 idx) (bget mu0 idx) (bget muex idx) (bget om idx) (bget tau idx)
                 (bget norm idx) (bget bsf idx) (bget f1 idx) (bget f2 idx).
Proof.
  unfold k_interaction. kernel. unfold nexp, nneg in *. rewrite !bget_map1. bg. rewrite !bget_map1. reflexivity.
Qed.
