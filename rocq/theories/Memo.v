(** The compiled fn-functions an object holds compared with functions compiled afresh. *)
From Coq Require Import Permutation.
From Verif Require Export SameSetup Geometry4.
Open Scope string_scope.
Open Scope nat_scope.
Open Scope list_scope.

Lemma adm_Kinv be ps : forall J w, adm J w ps -> Kinv (Some be) (w_heap w) -> Kinv (Some be) (w_heap (fst (run w ps))).
Proof.
  induction ps as [|p ps IH]; intros J w A H; [exact H|]. destruct A as [A1 A2]. rewrite run_cons. cbn [fst]. apply (IH (J_after J p)); [exact A2|].
  apply step_Kinv; [|exact H]. destruct p; try exact I. cbn [no_switch adm1] in *. intros b Hb. rewrite (proj1 H b Hb) in A1. exact A1.
Qed.
Lemma Kinv_init seng on : Kinv (Some (h_be (w_heap (init seng on)))) (w_heap (init seng on)).
Proof. split; [intros be E; now inversion E|]. intros o r H. unfold obj in H. simpl in H. destruct o; discriminate. Qed.
Lemma good_keys w p : good w p -> Kinv (Some (h_be (w_heap w))) (w_heap w) /\ (h_be (w_heap w) = Symengine -> h_seng (w_heap w) = true).
Proof.
  intros (seng & ps & A & ->). apply adm_app in A. destruct A as [A _].
  pose proof (adm_Kinv _ ps _ _ A (Kinv_init seng true)) as K. pose proof (proj1 K _ eq_refl) as B. rewrite B. split; [exact K|].
  intros E. rewrite run_seng. destruct seng; [reflexivity|discriminate E].
Qed.
Lemma good_keys_after w p : good w p ->
  let h := w_heap (fst (step w p)) in Kinv (Some (h_be h)) h /\ (h_be h = Symengine -> h_seng h = true).
Proof.
  intros G h. destruct (good_keys _ _ (good_next w p (OParamDict 0) G ltac:(intros J; exact I))) as [A B]. auto.
Qed.

(** the functions the object holds are compiled for its present parameter names *)
Definition up_to_date (r : rt1) : Prop := forall k, r_fnev r = Some k -> c_vars k = fn_angle_names ++ dkeys (r_params r).

Lemma fn_fresh h r f : (h_be h = Symengine -> h_seng h = true) -> r_intQ r = true -> fn_src h r f -> p_fn (conf h r) = Ok (Some f).
Proof.
  intros B Q S. unfold p_fn. cbn [conf c_fnin c_intQ c_V c_SRF c_geom c_backend c_seng]. unfold fn_src in S. destruct (r_fn_input r); [now subst|].
  rewrite Q. destruct S as (v & s & -> & -> & E). cbn [rbind]. rewrite E. cbn [rbind]. destruct (h_be h); [reflexivity|]. now rewrite B.
Qed.
Lemma fnev_fresh h r : fn_ok h r -> key_ok (Some (h_be h)) r -> (h_be h = Symengine -> h_seng h = true) -> r_intQ r = true ->
  up_to_date r -> fnev_next h r = p_fnev (conf h r).
Proof.
  intros [F1 F2] [_ K] B Q U. unfold fnev_next, p_fnev. cbn [conf c_fnevin c_intQ]. rewrite Q. destruct (r_fnev r) as [k|] eqn:Ek.
  - destruct (F2 k eq_refl) as [Hi (sg & ks & ex & f & L & Hk & S)]. rewrite Hi. rewrite (fn_fresh h r f B Q S). unfold p_comp. cbn [rbind].
    change (dkeys (c_params (conf h r))) with (dkeys (map (fun kv => (fst kv, sderef h (snd kv))) (r_params r))). rewrite dkeys_map.
    destruct (lambdify_Ok _ _ _ _ _ L) as (E & Nd & Hs).
    assert (V : c_vars k = fn_angle_names ++ ks) by (rewrite E; reflexivity). rewrite (U k Ek) in V.
    cbn [conf c_backend c_seng]. rewrite V. destruct (K k eq_refl) as (_ & Hb & _). rewrite (Hb _ eq_refl) in E, Hs, L.
    assert (X : lambdify (h_be h) (h_seng h) (fn_angle_names ++ ks) f = Ok k).
    { unfold lambdify in *. destruct (h_be h); [exact L|]. rewrite (B eq_refl). destruct sg; [exact L|discriminate]. }
    rewrite X. reflexivity.
  - destruct (r_fnevals_input r); [reflexivity|]. f_equal. unfold fn_next. destruct (r_fn r) as [f|] eqn:Ef; [|reflexivity].
    symmetry. apply fn_fresh; auto.
Qed.
(** functions compiled for other names cannot be called any more *)
Lemma stale_Fint ob h r k first a : key_ok ob r -> r_fnev r = Some k -> c_vars k <> fn_angle_names ++ dkeys (r_params r) ->
  p_Fint (conf h r) (Ok (Some k)) first <> Ok a.
Proof.
  intros [_ K] Ek N H. destruct (K k Ek) as (_ & _ & sg & ks & ex & L & Hk). pose proof L as L2.
  assert (Kc : dkeys (c_params (conf h r)) = ks ++ ex) by (cbn [conf c_params]; rewrite dkeys_map; exact Hk).
  destruct (Fint_inv _ _ _ _ _ _ _ _ H L Kc) as (t0 & p0 & tex & pex & kw & n & mu & mux & tau & fv & _ & _ & _ & _ & _ & _ & _ & _ & _ & _ & Hx & _).
  apply N. destruct (lambdify_Ok _ _ _ _ _ L2) as (E & _). rewrite E. cbn [c_vars]. rewrite Hk, Hx, app_nil_r. reflexivity.
Qed.
Lemma stale_interaction ob h r k a : key_ok ob r -> r_fnev r = Some k -> c_vars k <> fn_angle_names ++ dkeys (r_params r) ->
  p_interaction (conf h r) (fnev_next h r) <> Ok a.
Proof.
  intros K Ek N H. unfold p_interaction in H. unfold fnev_next in H. rewrite Ek in H.
  destruct (p_Fint (conf h r) (Ok (Some k)) true) as [f1|] eqn:E; [|discriminate]. revert E. now apply (stale_Fint ob).
Qed.
Lemma calc_no_int C fe fe' : c_intQ C = false -> p_calc C fe = p_calc C fe'.
Proof. intros Q. unfold p_calc, p_calc_body, p_parts. now rewrite Q. Qed.

(** the dictionary after adding fresh names *)
Lemma dset_fresh {A} (d : dict A) k v : ~ In k (dkeys d) -> dset d k v = d ++ [(k, v)].
Proof.
  induction d as [|[k' v'] d IH]; intros H; [reflexivity|]. cbn [dset]. destruct (String.eqb_spec k k') as [->|N].
  - exfalso. apply H. now left.
  - rewrite IH; [reflexivity|]. intros X. apply H. now right.
Qed.
Lemma dupdate_fresh {A} (kw : dict A) : forall d, NoDup (dkeys d ++ dkeys kw) -> dupdate d kw = d ++ kw.
Proof.
  induction kw as [|[k v] kw IH]; intros d H; [now rewrite app_nil_r|].
  change (dupdate d ((k, v) :: kw)) with (dupdate (dset d k v) kw).
  assert (Nk : ~ In k (dkeys d)).
  { cbn [dkeys map fst] in H. apply NoDup_remove_2 in H. intros X. apply H. apply in_or_app. now left. }
  rewrite dset_fresh by assumption. rewrite IH.
  - rewrite <- app_assoc. reflexivity.
  - unfold dkeys in *. rewrite map_app. cbn [map fst] in *. rewrite <- app_assoc. exact H.
Qed.
Lemma rmap_app {A B} (f : A -> res B) l l' y y' : rmap f l = Ok y -> rmap f l' = Ok y' -> rmap f (l ++ l') = Ok (y ++ y').
Proof.
  revert y. induction l as [|a l IH]; intros y H H'; cbn [rmap app] in *; [inversion H; subst; exact H'|].
  destruct (f a) as [b|]; [cbn [rbind] in *|discriminate]. destruct (rmap f l) as [bs|]; [cbn [rbind] in *|discriminate].
  inversion H; subst. rewrite (IH bs eq_refl H'). reflexivity.
Qed.
Lemma bc_shapes_snoc l s : bc_shapes (l ++ [s]) = match bc_shapes l with Some a => bc_shape a s | None => None end.
Proof. unfold bc_shapes. rewrite fold_left_app. reflexivity. Qed.
Lemma bc_one s : s <> [] -> bc_shape s [1] = Some s.
Proof. destruct s as [|d s]; [congruence|]. intros _. cbn [bc_shape]. destruct s; cbn; destruct d as [|[|d]]; reflexivity. Qed.
Lemma bc_ones m : forall l, (exists s, In s l /\ s <> []) -> bc_shapes (l ++ repeat [1] m) = bc_shapes l.
Proof.
  induction m as [|m IH]; intros l (s & Hs & N); [now rewrite app_nil_r|].
  replace (repeat [1] (S m)) with ([[1]] ++ repeat [1] m) by reflexivity. rewrite app_assoc, IH.
  - rewrite bc_shapes_snoc. destruct (bc_shapes l) as [a|] eqn:E; [|reflexivity]. apply bc_one. intros ->.
    pose proof (proj2 (bc_fold_ble l [] [] E) s Hs) as X. now apply ble_nil_r in X.
  - exists s. split; [apply in_or_app; now left|assumption].
Qed.
