(** How the compiled fn-functions are called (_calc.py:1089-1141): which value every symbol gets. *)
From Verif Require Export FnState ScatEl FintEl.
Open Scope string_scope.
Open Scope nat_scope.
Open Scope list_scope.

(** the fn-functions an object is about to use *)
Lemma fnev_next_src h r k : Finv h -> (exists o, obj h o = Ok r) -> r_fnevals_input r = None -> fnev_next h r = Ok (Some k) -> fnev_src h r k.
Proof.
  intros H (o & Ho) Hi. destruct (H o r Ho) as [F1 F2]. unfold fnev_next. rewrite Hi. destruct (r_fnev r) as [k'|] eqn:Ek.
  { intros E. inversion E; subst. now apply F2. }
  destruct (r_intQ r) eqn:Eq; [|discriminate]. unfold p_comp. intros E.
  destruct (fn_next h r) as [[es|]|] eqn:En; try discriminate. cbn [rbind] in E. destruct (lambdify _ _ _ es) as [c|] eqn:El; [|discriminate].
  cbn [rbind] in E. inversion E; subst c. exists (c_seng (conf h r)), (dkeys (r_params r)), [], es.
  destruct (lambdify_Ok _ _ _ _ _ El) as (Hk & _). split; [|split].
  - assert (K : dkeys (c_params (conf h r)) = dkeys (r_params r)) by apply dkeys_map. rewrite K in El. rewrite Hk at 1. exact El.
  - now rewrite app_nil_r.
  - unfold fn_next in En. destruct (r_fn r) as [f|] eqn:Ef; [inversion En; subst; now apply F1|]. unfold p_fn in En. cbn [conf c_fnin c_intQ c_V c_SRF c_geom] in En.
    unfold fn_src. destruct (r_fn_input r) as [f|]; [now inversion En|]. rewrite Eq in En.
    destruct (scat_at h (r_V r)) as [v|]; [|discriminate]. destruct (scat_at h (r_SRF r)) as [s|]; [|discriminate]. cbn [rbind] in En.
    destruct (calc_fn v s (r_geom r)) as [f|] eqn:Ec; [|discriminate]. cbn [rbind] in En. exists v, s.
    destruct (c_backend _), (c_seng _); try discriminate; inversion En; subst; auto.
Qed.

Lemma p_params_keys C d : p_params C = Ok d -> dkeys d = dkeys (c_params C).
Proof.
  unfold p_params, dkeys. intros H. apply rmap_Forall2 in H. induction H as [|x y l l' E _ IH]; [reflexivity|]. simpl.
  destruct (snd x); [|discriminate]. inversion E; subst. simpl. congruence.
Qed.
Lemma env_dvals (kw : dict (nd xr)) sh i s : NoDup (dkeys kw) -> (forall a, In a (dvals kw) -> sub (shp a) sh) -> In s (dkeys kw) ->
  env_of (dkeys kw) (map (broadcast_to sh) (dvals kw)) i s = match dget kw s with Some a => bget a i | None => NaN end.
Proof.
  intros N H Hs. rewrite env_of_broadcast by assumption. clear H. revert Hs. induction kw as [|[k v] kw IH]; [intros []|].
  cbn [dkeys dvals map fst snd env_of dget]. inversion N; subst. intros [<-|Hs]; [now rewrite String.eqb_refl|].
  destruct (String.eqb_spec s k); [reflexivity|]. apply IH; assumption.
Qed.
(** positional arguments (theta_0, phi_0, theta_ex, phi_ex, parameters in dictionary order) *)
Lemma fint_env a b c d kw sh i s : NoDup (fn_angle_names ++ dkeys kw) ->
  (forall x, In x (a :: b :: c :: d :: dvals kw) -> sub (shp x) sh) -> In s (fn_angle_names ++ dkeys kw) ->
  env_of (fn_angle_names ++ dkeys kw) (map (broadcast_to sh) (a :: b :: c :: d :: dvals kw)) i s = env_at a c b d kw i s.
Proof.
  intros N H Hs. unfold env_at. cbn [fn_angle_names app map env_of].
  destruct (String.eqb_spec s "theta_0"); [apply bget_broadcast_to, H; simpl; auto|].
  destruct (String.eqb_spec s "phi_0") as [->|]; [rewrite bget_broadcast_to by (apply H; simpl; auto); reflexivity|].
  destruct (String.eqb_spec s "theta_ex"); [apply bget_broadcast_to, H; simpl; auto|].
  destruct (String.eqb_spec s "phi_ex"); [apply bget_broadcast_to, H; simpl; auto|].
  apply env_dvals.
  - clear -N. cbn [fn_angle_names app] in N. do 4 (inversion N as [|? ? _ N1]; subst; clear N; rename N1 into N). exact N.
  - intros x Hx. apply H. simpl. auto.
  - apply in_app_or in Hs. destruct Hs as [Hs|Hs]; [|assumption]. simpl in Hs. destruct Hs as [<-|[<-|[<-|[<-|[]]]]]; congruence.
Qed.

(** ranks *)
Definition ranks (n : nat) (l : list (nd xr)) : Prop := forall a, In a l -> length (shp a) <= n.
Lemma bc_rank_le n l : ranks n l -> bc_rank l <= n.
Proof. unfold ranks, bc_rank. induction l as [|a l IH]; intros H; simpl; [lia|]. apply Nat.max_lub; [apply H; now left|]. apply IH. intros; apply H; now right. Qed.
Lemma bc_shapes_len n (l : list (list nat)) r : (forall s, In s l -> length s <= n) -> bc_shapes l = Some r -> length r <= n.
Proof.
  unfold bc_shapes. intros H. assert (G : forall l a, (forall s, In s l -> length s <= n) -> length a <= n ->
    fold_left (fun acc s => match acc with Some a => bc_shape a s | None => None end) l (Some a) = Some r -> length r <= n).
  { clear. induction l as [|s l IH]; intros a H La E; simpl in E; [inversion E; now subst|].
    destruct (bc_shape a s) as [c|] eqn:Ec; [|exfalso; clear -E; induction l; simpl in E; [discriminate|auto]].
    eapply IH; [intros; apply H; now right| |exact E]. rewrite (bc_shape_rank _ _ _ Ec). apply Nat.max_lub; [assumption|apply H; now left]. }
  apply G; [assumption|simpl; lia].
Qed.
Lemma shape_of_sym_rank n vars vals s : ranks n vals -> length (shape_of_sym vars vals s) <= n.
Proof.
  intros H. unfold shape_of_sym. destruct (find _ _) as [[v a]|] eqn:E; [|simpl; lia]. apply find_some in E. destruct E as [E _].
  apply in_combine_r in E. now apply H.
Qed.
Lemma call_rank n k pos l : ranks n pos -> call k pos [] = Ok l -> ranks n l.
Proof.
  intros H. unfold call. destruct (c_be k).
  - unfold bind_sympy. destruct (_ <? _); [discriminate|]. cbn [dkeys map forallb negb].
    destruct (rmap _ (skipn _ _)) as [vs|] eqn:Ev; [|discriminate]. cbn [rbind].
    assert (Z : vs = []). { apply rmap_Forall2 in Ev. destruct Ev as [|x y l0 l1 E _]; [reflexivity|discriminate E]. }
    subst vs. rewrite app_nil_r. destruct (subset_b _ _); [|discriminate]. intros E a Ha.
    apply rmap_Forall2 in E. induction E as [|x y l0 l1 E _ IH]; [destruct Ha|]. destruct Ha as [->|Ha]; [|auto].
    unfold eval_sympy in E. destruct (bc_shapes _) as [sh|] eqn:Es; [|discriminate]. inversion E; subst. cbn [shp].
    eapply bc_shapes_len; [|exact Es]. intros s Hs. apply in_map_iff in Hs. destruct Hs as (z & <- & _). now apply shape_of_sym_rank.
  - destruct (c_vars k) as [|v vars] eqn:Ev; [discriminate|]. unfold bind_symengine.
    destruct (rmap _ (skipn _ _)) as [vs|] eqn:Er; [|discriminate]. cbn [rbind].
    assert (Z : vs = []). { apply rmap_Forall2 in Er. destruct Er as [|x y l0 l1 E _]; [reflexivity|discriminate E]. }
    subst vs. rewrite app_nil_r. destruct (broadcast_arrays pos) as [args|] eqn:Eb; [|discriminate]. cbn [rbind].
    destruct (_ =? _); [|discriminate]. cbn [rbind]. intros E a Ha. inversion E; subst. apply in_map_iff in Ha. destruct Ha as (e & <- & _).
    unfold eval_symengine. cbn [shp]. destruct args as [|x args]; [simpl; lia|].
    destruct (broadcast_arrays_spec _ _ Eb) as (sh & Es & Ex & _). assert (Sx : shp x = sh).
    { destruct pos; [discriminate Ex|]. inversion Ex. reflexivity. }
    rewrite Sx. eapply bc_shapes_len; [|exact Es]. intros s Hs. apply in_map_iff in Hs. destruct Hs as (z & <- & Hz). now apply H.
Qed.
Lemma broadcast_rank n (l l' : list (nd xr)) : broadcast_arrays l = Ok l' -> ranks n l -> ranks n l'.
Proof.
  intros H R a Ha. destruct (broadcast_arrays_spec _ _ H) as (s & Es & -> & _). apply in_map_iff in Ha. destruct Ha as (x & <- & _). cbn [shp broadcast_to].
  eapply bc_shapes_len; [|exact Es]. intros t Ht. apply in_map_iff in Ht. destruct Ht as (z & <- & Hz). now apply R.
Qed.
Lemma bc_rank_flat (l : list (nd xr)) : l <> [] -> ranks 1 l -> bc_rank (map atleast_1d l) = 1.
Proof.
  intros N H. assert (A : forall a, In a l -> length (shp (atleast_1d a)) = 1).
  { intros a Ha. specialize (H a Ha). unfold atleast_1d. destruct (shp a) as [|d [|]] eqn:E; cbn [shp]; rewrite ?E; simpl in *; lia || reflexivity. }
  clear H. induction l as [|a l IH]; [congruence|]. cbn [map bc_rank fold_right]. rewrite (A a) by (now left).
  destruct l as [|b l]; [reflexivity|]. change (fold_right _ 0 (map atleast_1d (b :: l))) with (bc_rank (map atleast_1d (b :: l))).
  rewrite IH; [reflexivity|discriminate|]. intros; apply A. now right.
Qed.

(** ** inputs with more than one dimension *)
(** the compiled functions broadcast over all their arguments (symengine), or at least one of them
    depends on an argument (sympy evaluates constants to numbers) *)
Definition fills (k : compiled) : Prop := c_be k = Symengine \/ Exists (fun e => syms e <> []) (c_exprs k).
Lemma bc_shapes_same s (l : list (list nat)) : l <> [] -> Forall (eq s) l -> bc_shapes l = Some s.
Proof.
  intros N F. unfold bc_shapes. destruct F as [|a l E F]; [congruence|]. subst a. cbn [fold_left].
  replace (bc_shape [] s) with (Some s) by (destruct s; reflexivity). clear N.
  induction F as [|a l E F IH]; [reflexivity|]. subst a. cbn [fold_left]. rewrite bc_shape_refl. exact IH.
Qed.
Lemma find_combine s (vars : list string) (vals : list (nd xr)) : length vals = length vars -> In s vars ->
  exists v a, find (fun va => String.eqb s (fst va)) (combine vars vals) = Some (v, a) /\ In a vals.
Proof.
  revert vals. induction vars as [|v vars IH]; intros vals L H; [destruct H|]. destruct vals as [|a vals]; [discriminate L|].
  cbn [combine find fst]. destruct (String.eqb_spec s v) as [->|N].
  - exists v, a. split; [reflexivity|now left].
  - destruct H as [E|H]; [congruence|]. destruct (IH vals) as (v' & a' & F & I); [simpl in L; lia|assumption|]. exists v', a'. split; [exact F|now right].
Qed.
Lemma shape_of_sym_same sh vars vals s : length vals = length vars -> In s vars -> (forall a, In a vals -> shp a = sh) -> shape_of_sym vars vals s = sh.
Proof. intros L H S. unfold shape_of_sym. destruct (find_combine s vars vals L H) as (v & a & -> & I). now apply S. Qed.
Lemma call_fills k pos l sh : length pos = length (c_vars k) -> (forall a, In a pos -> shp a = sh) -> call k pos [] = Ok l ->
  c_exprs k <> [] -> fills k -> exists x, In x l /\ shp x = sh.
Proof.
  intros L H. unfold call, fills. destruct (c_be k).
  - unfold bind_sympy. destruct (_ <? _); [discriminate|]. cbn [dkeys map forallb negb].
    destruct (rmap _ (skipn _ _)) as [vs|] eqn:Ev; [|discriminate]. cbn [rbind].
    assert (Z : vs = []). { apply rmap_Forall2 in Ev. destruct Ev as [|x y l0 l1 E _]; [reflexivity|discriminate E]. }
    subst vs. rewrite app_nil_r. destruct (subset_b _ _) eqn:Es; [|discriminate]. apply subset_b_incl in Es.
    intros E _ [F|F]; [discriminate F|]. apply rmap_Forall2 in E. revert Es. unfold all_syms. induction E as [|e y l0 l1 E El IH]; intros Es; [inversion F|].
    inversion F as [? ? N|? ? F']; subst.
    + exists y. split; [now left|]. unfold eval_sympy in E.
      rewrite (bc_shapes_same sh) in E; [inversion E; reflexivity| |].
      * destruct (syms e); [congruence|discriminate].
      * apply Forall_forall. intros z Hz. apply in_map_iff in Hz. destruct Hz as (s & <- & Hs). symmetry. apply shape_of_sym_same; auto.
        apply Es. simpl. apply in_or_app. now left.
    + destruct IH as (x & Hx & Sx); [assumption| |exists x; split; [now right|assumption]]. intros z Hz. apply Es. simpl. apply in_or_app. now right.
  - destruct (c_vars k) as [|v vars] eqn:Ev; [discriminate|]. unfold bind_symengine.
    destruct (rmap _ (skipn _ _)) as [vs|] eqn:Er; [|discriminate]. cbn [rbind].
    assert (Z : vs = []). { apply rmap_Forall2 in Er. destruct Er as [|x y l0 l1 E _]; [reflexivity|discriminate E]. }
    subst vs. rewrite app_nil_r. destruct (broadcast_arrays pos) as [args|] eqn:Eb; [|discriminate]. cbn [rbind].
    destruct (_ =? _); [|discriminate]. cbn [rbind]. intros E N _. inversion E; subst. destruct (c_exprs k) as [|e es]; [congruence|].
    eexists. split; [left; reflexivity|]. unfold eval_symengine. cbn [shp].
    destruct (broadcast_arrays_spec _ _ Eb) as (s & Es & -> & _). destruct pos as [|p pos]; [discriminate L|]. cbn [map]. cbn [shp broadcast_to].
    rewrite (bc_shapes_same sh) in Es; [now inversion Es|discriminate|]. apply Forall_forall. intros z Hz. apply in_map_iff in Hz. destruct Hz as (a & <- & Ha). symmetry. now apply H.
Qed.
Lemma bc_rank_full n (l : list (nd xr)) : 1 <= n -> ranks n l -> (exists x, In x l /\ length (shp x) = n) -> bc_rank (map atleast_1d l) = n.
Proof.
  intros N H (x & Hx & Lx).
  assert (A : forall a, In a l -> length (shp (atleast_1d a)) <= n).
  { intros a Ha. specialize (H a Ha). unfold atleast_1d. destruct (shp a) eqn:E; cbn [shp]; [simpl; lia|now rewrite E in *]. }
  assert (B : length (shp (atleast_1d x)) = n).
  { unfold atleast_1d. destruct (shp x) eqn:E; cbn [shp]; [simpl in *; lia|now rewrite E]. }
  clear H Lx. induction l as [|a l IH]; [destruct Hx|]. cbn [map bc_rank fold_right]. fold (bc_rank (map atleast_1d l)).
  destruct Hx as [->|Hx].
  - assert (M : bc_rank (map atleast_1d l) <= n).
    { clear -A. induction l as [|b l IH]; [simpl; lia|]. cbn [map bc_rank fold_right]. fold (bc_rank (map atleast_1d l)). apply Nat.max_lub; [apply A; right; now left|].
      apply IH. intros c [->|Hc]; apply A; [now left|right; now right]. }
    lia.
  - rewrite IH; [|assumption|intros; apply A; now right]. specialize (A a (or_introl eq_refl)). lia.
Qed.
