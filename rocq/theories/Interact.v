(** The interaction contribution in terms of its inputs (_calc.py:665-703, 1067-1141). *)
From Coquelicot Require Import Coquelicot.
From Verif Require Import ExpInt AzInt LegFacts.
From Coq Require Import Lia List.
From Verif Require Import SpecExp.
From Verif Require Export FintVal FnInt.
Open Scope string_scope.
Open Scope nat_scope.
Open Scope list_scope.

Lemma F2_app_nil {A B} (P : A -> B -> Prop) l m : Forall2 P l m -> m = nil -> l = nil.
Proof. intros H ->. now inversion H. Qed.

(** the names a call of the fn-functions is given: the angles of the second integral are exchanged *)
Definition dir_env (first : bool) (t0 tex p0 pex : nd xr) (kw : dict (nd xr)) : list nat -> string -> xr :=
  if first then env_at t0 tex p0 pex kw else env_at tex t0 pex p0 kw.

Lemma bc_rank_in (x : nd xr) l : In x l -> length (shp x) <= bc_rank l.
Proof. induction l as [|a l IH]; [intros []|]. cbn [bc_rank fold_right]. fold (bc_rank l). intros [->|H]; [lia|]. specialize (IH H). lia. Qed.
Lemma Fint_inv C k first a seng ks ex fns : p_Fint C (Ok (Some k)) first = Ok a ->
  lambdify (c_be k) seng (fn_angle_names ++ ks) fns = Ok k -> dkeys (c_params C) = ks ++ ex ->
  exists t0 p0 tex pex kw n mu mux tau fv,
    p_read C T0 = Ok t0 /\ p_read C P0 = Ok p0 /\ p_read C TEx = Ok tex /\ p_read C PEx = Ok pex /\ p_params C = Ok kw /\
    p_nmax C = Ok n /\ (if first then p_mu0 C else p_muex C) = Ok mu /\ k_mux n mu = Ok mux /\ p_val C Tau = Ok tau /\
    k_Fint n fv mux mu tau = Ok a /\ ex = nil /\ incl (all_syms fns) (fn_angle_names ++ dkeys kw) /\
    (forall m, ranks m (t0 :: p0 :: tex :: pex :: dvals kw) -> ranks m fv) /\
    (fills k -> fns <> nil -> forall m, ranks m (t0 :: p0 :: tex :: pex :: dvals kw) -> m <= length (shp t0) -> exists x, In x fv /\ length (shp x) = m) /\
    Forall2 (fun e x => forall i, bget x i = evalX (dir_env first t0 tex p0 pex kw i) e) fns fv.
Proof.
  intros H L Hk. unfold p_Fint in H.
  destruct (p_read C T0) as [t0|]; [cbn [rbind] in H|discriminate]. destruct (p_read C P0) as [p0|]; [cbn [rbind] in H|discriminate].
  destruct (p_read C TEx) as [tex|]; [cbn [rbind] in H|discriminate]. destruct (p_read C PEx) as [pex|]; [cbn [rbind] in H|discriminate].
  destruct (p_params C) as [kw|] eqn:Ek; [cbn [rbind] in H|discriminate].
  destruct (broadcast_arrays _) as [args|] eqn:Eb; [cbn [rbind] in H|discriminate].
  destruct (call k args nil) as [fv|] eqn:Ec; [cbn [rbind] in H|discriminate].
  destruct (p_nmax C) as [n|]; [cbn [rbind] in H|discriminate].
  destruct (if first then p_mu0 C else p_muex C) as [mu|] eqn:Em; [cbn [rbind] in H|discriminate].
  destruct (k_mux n mu) as [mux|] eqn:Ex; [cbn [rbind] in H|discriminate].
  destruct (p_val C Tau) as [tau|] eqn:Et; [cbn [rbind] in H|discriminate].
  exists t0, p0, tex, pex, kw, n, mu, mux, tau, fv.
  do 10 (split; [first [reflexivity|assumption]|]).
  destruct (lambdify_Ok _ _ _ _ _ L) as (Ek' & Nd & Hse). pose proof (p_params_keys _ _ Ek) as Kk. rewrite Hk in Kk.
  destruct (call_spec _ _ _ _ Ec) as (vals & (vs & Ev & Lv & Fv) & Ln & F).
  destruct (broadcast_arrays_spec _ _ Eb) as (sh & Esh & Ea & Hsub).
  assert (Vk : c_vars k = fn_angle_names ++ ks) by (rewrite Ek'; reflexivity).
  assert (Xk : c_exprs k = fns) by (rewrite Ek'; reflexivity).
  assert (Exn : ex = nil).
  { rewrite Vk, Ea, map_length in Lv. unfold dvals in Lv. rewrite app_length in Lv. rewrite map_length in Lv.
    assert (Lk : length kw = length ks + length ex) by (rewrite <- app_length, <- Kk; unfold dkeys; now rewrite map_length).
    rewrite app_length in Lv. destruct first; cbn [List.length fn_angle_names] in Lv; destruct ex; auto; cbn [List.length] in Lk; lia. }
  split; [exact Exn|]. rewrite Exn, app_nil_r in Kk.
  assert (Inc : incl (all_syms fns) (fn_angle_names ++ dkeys kw)).
  { rewrite Kk, <- Vk, <- Xk. eapply call_syms; [exact Ec|]. intros B. rewrite Vk, Xk. destruct (Hse B) as [_ B']. now apply subset_b_incl. }
  split; [exact Inc|].
  assert (Evs : vals = args).
  { rewrite Ev. assert (L0 : length args = length (c_vars k)).
    { rewrite Vk, <- Kk, Ea, map_length, !app_length. unfold dvals, dkeys. rewrite !map_length. destruct first; reflexivity. }
    rewrite skipn_all2 in Fv by lia. inversion Fv. apply app_nil_r. }
  split.
  { intros m R. eapply call_rank; [|exact Ec]. eapply broadcast_rank; [exact Eb|]. intros x Hx. apply R. destruct first; simpl in Hx |- *; tauto. }
  split.
  { intros Fl Nn m R Lm. destruct (call_fills k args fv sh) as (x & Hx & Sx); try assumption.
    - rewrite Vk, <- Kk, Ea, map_length, !app_length. unfold dvals, dkeys. rewrite !map_length. destruct first; reflexivity.
    - intros b Hb. rewrite Ea in Hb. apply in_map_iff in Hb. destruct Hb as (y & <- & _). reflexivity.
    - now rewrite Xk.
    - exists x. split; [exact Hx|]. rewrite Sx. apply Nat.le_antisymm.
      + assert (B : ranks m args) by (eapply broadcast_rank; [exact Eb|]; intros y Hy; apply R; destruct first; simpl in Hy |- *; tauto).
        assert (exists y ys, args = broadcast_to sh y :: ys) as (y & ys & ->) by (rewrite Ea; destruct first; eexists; eexists; reflexivity).
        apply (B (broadcast_to sh y)). now left.
      + apply bc_shapes_rank in Esh. rewrite Esh. etransitivity; [exact Lm|]. apply bc_rank_in. destruct first; simpl; tauto. }
  rewrite Xk in F. clear -F Inc Ea Hsub Vk Kk Nd Evs. subst vals.
  assert (G : forall s, In s (fn_angle_names ++ dkeys kw) -> forall i, env_of (c_vars k) args i s = dir_env first t0 tex p0 pex kw i s).
  { intros s Hs i. rewrite Vk, <- Kk, Ea. apply no_dup_b_NoDup in Nd. rewrite <- Kk in Nd. unfold dir_env. destruct first.
    - apply (fint_env t0 p0 tex pex kw sh i s Nd); assumption.
    - apply (fint_env tex pex t0 p0 kw sh i s Nd); assumption. }
  induction F as [|e x fns fv E _ IH]; constructor.
  - intros i. rewrite E. apply evalX_ext. intros s Hs. apply G, Inc. unfold all_syms. simpl. apply in_or_app. now left.
  - apply IH. intros s Hs. apply Inc. unfold all_syms in *. simpl. apply in_or_app. now right.
Qed.

Lemma read_rank h r a x : p_read (conf h r) a = Ok x -> 1 <= length (shp x).
Proof.
  assert (S : forall a y, p_stored (conf h r) a = Ok y -> 1 <= length (shp y)).
  { intros b y. unfold p_stored. cbn [conf c_ang]. destruct (r_ang r b) as [v|]; [|discriminate]. cbn [option_map]. unfold val1.
    destruct (deref h v) as [z|]; [|discriminate]. cbn [rbind]. intros E. apply ok_eq in E. subst y. unfold atleast_1d.
    destruct (shp z) eqn:Ez; cbn [shp]; [simpl; lia|rewrite Ez; simpl; lia]. }
  unfold p_read. destruct a; try apply S; destruct (c_mono (conf h r)); try apply S.
  destruct (p_stored (conf h r) P0) as [p|] eqn:E; [|discriminate]. cbn [rbind]. unfold nadd. intros H. apply map2_rank in H. rewrite H. specialize (S _ _ E). lia.
Qed.

(** ** Expansions of degree 0 *)
Lemma leg_series_1 c n x y : n <= 1 -> leg_series c n x = leg_series c n y.
Proof. intros H. destruct n as [|[|n]]; [reflexivity|reflexivity|lia]. Qed.
Lemma list_max_filter (p : wchoice -> bool) (h : wchoice -> nat) l : list_max (map h (filter p l)) <= list_max (map h l).
Proof. induction l as [|c l IH]; simpl; [lia|]. destruct (p c); simpl; lia. Qed.
Lemma expansion_const f s a b c d a' b' c' d' : ncoefs s = Ok 1 -> expansion_value f s a b c d = expansion_value f s a' b' c' d'.
Proof.
  intros H. destruct s; cbn [expansion_value]; try (apply leg_series_1; unfold nc_of; rewrite H; lia).
  apply wsum_ext. intros x _. f_equal. apply leg_series_1. cbn [ncoefs] in H. apply rmax_ok in H. destruct H as [H _].
  unfold group_nc. eapply Nat.le_trans; [apply list_max_filter|]. rewrite map_map in H. unfold nc_of. lia.
Qed.
Lemma poly_at_pair (x y u : R) : poly_at (x :: y :: nil) u = (x + y * u)%R. Proof. simpl. ring. Qed.

(** with one coefficient each the second fn-coefficient vanishes *)
Lemma fn_second V SRF g x y f : calc_fn V SRF g = Ok (x :: y :: nil) -> ncoefs V = Ok 1 -> ncoefs SRF = Ok 1 ->
  free_angs g -> free_scat V -> free_scat SRF -> no_n V -> no_n SRF -> evalR f y = 0%R.
Proof.
  intros E HV HS Fg FV FS NV NS.
  assert (I0 := fn_integral V SRF g _ E 1 1 HV HS Nat.lt_0_1 Nat.lt_0_1 Fg FV FS f 0 NV NS).
  assert (I1 := fn_integral V SRF g _ E 1 1 HV HS Nat.lt_0_1 Nat.lt_0_1 Fg FV FS f (PI/2) NV NS).
  assert (I2 : is_RInt (fun ph => vol_exp V g f 0 ph * brdf_exp SRF g f 0 ph)%R 0 (2 * PI) (poly_at (map (evalR f) (x :: y :: nil)) (cos (PI/2)))).
  { eapply is_ext; [|exact I1]. intros ph. unfold vol_exp, brdf_exp. f_equal; now apply expansion_const. }
  pose proof (is_RInt_unique _ _ _ _ I0) as U0. pose proof (is_RInt_unique _ _ _ _ I2) as U2. rewrite U0 in U2. cbn [map] in U2.
  rewrite !poly_at_pair, cos_0, cos_PI2 in U2. lra.
Qed.

Section Value.
  Context (V SRF : scat) (g : angs) (fns : list expr) (nV nS : nat).
  Hypothesis (E : calc_fn V SRF g = Ok fns) (HV : ncoefs V = Ok nV) (HS : ncoefs SRF = Ok nS).
  Hypothesis (PV : 0 < nV) (PS : 0 < nS) (Fg : free_angs g) (FV : free_scat V) (FS : free_scat SRF).
  Hypothesis (NV : no_n V) (NS : no_n SRF).
  Context (f : string -> R) (mu tau : R).
  Hypothesis (Hm : (0 < mu < 1)%R) (Ht : (0 < tau)%R).
  Lemma k_Fint_value env mua taua mux fv a i :
    k_Fint (nV + nS - 1) fv mux mua taua = Ok a -> k_mux (nV + nS - 1) mua = Ok mux ->
    Forall2 (fun e x => forall i, bget x i = evalX (env i) e) fns fv ->
    (forall s, In s (all_syms fns) -> env i s = Fin (f s)) -> Forall (wd f) fns ->
    bget mua i = Fin mu -> bget taua i = Fin tau ->
    length (shp taua) <= length (shp mua) -> bc_rank (map atleast_1d fv) = length (shp mua) ->
    exists F, bget a i = Fin F /\ is_RInt (fun u => u * kern mu tau u * poly_at (map (evalR f) fns) u)%R 0 1 F.
  Proof.
    intros K M F2 En W Em Et Rt Rf.
    pose proof (fn_length V SRF g fns E nV nS HV HS) as L.
    assert (Vals : map (fun x => bget x i) fv = map Fin (map (evalR f) fns)).
    { clear -F2 En W. induction F2 as [|e x fns fv H _ IH]; [reflexivity|]. inversion W; subst. cbn [map]. f_equal.
      - rewrite H. apply evalX_Fin; [|assumption]. intros s Hs. apply En. unfold all_syms. simpl. apply in_or_app. now left.
      - apply IH; [|assumption]. intros s Hs. apply En. unfold all_syms in *. simpl. apply in_or_app. now right. }
    pose proof (F2_length _ _ _ F2) as Lv.
    destruct (Nat.eq_dec (nV + nS - 1) 1) as [N1|N1].
    { assert (nV = 1 /\ nS = 1) as [-> ->] by lia. destruct fns as [|x [|y [|]]]; try (cbn [List.length Nat.max Nat.add Nat.sub] in L; lia).
      destruct fv as [|x' [|y' [|]]]; try (cbn [List.length] in Lv; lia).
      pose proof (k_Fint_el1 x' y' mux mua taua a i K M Rt Rf) as Ea. cbv zeta in Ea. apply proj1 in Ea. rewrite Em, Et in Ea. cbn [map] in Vals. inversion Vals as [[Vx Vy]].
      rewrite Vx, Vy in Ea.
      assert (Z : evalR f y = 0%R) by (eapply (fn_second V SRF g x y f); eassumption).
      destruct (x_Fint_val mu tau Hm Ht (map (evalR f) (x :: y :: nil))) as (F & XF & IF). exists F. split; [|exact IF].
      rewrite Ea, <- XF. unfold x_Fint. cbn [map List.length seq fold_right nth]. rewrite Z. change (0 + 1) with 1. change (1 + 1) with 2.
      rewrite !xpow_Fin, !(x_S2_val mu tau Hm Ht). cbn [xmul xadd]. f_equal. ring. }
    { destruct (k_Fint_el _ _ _ _ _ _ i K M) as [Eb _]; [rewrite <- Lv, L; lia|assumption|assumption|].
      rewrite Vals, Em, Et in Eb. destruct (x_Fint_val mu tau Hm Ht (map (evalR f) fns)) as (F & XF & IF). exists F. split; [congruence|exact IF]. }
  Qed.
  (** as an integral over the upper hemisphere *)
  Lemma hemisphere F : is_RInt (fun u => u * kern mu tau u * poly_at (map (evalR f) fns) u)%R 0 1 F ->
    is_RInt (fun u => u / (mu - u) * (exp (- tau / mu) - exp (- tau / u)) *
      RInt (fun ph => vol_exp V g f (acos u) ph * brdf_exp SRF g f (acos u) ph) 0 (2 * PI))%R 0 1 F.
  Proof.
    intros H. eapply is_RInt_ext; [|exact H]. intros u [U1 U2]. rewrite Rmin_left in U1 by lra. rewrite Rmax_right in U2 by lra.
    rewrite (is_RInt_unique _ _ _ _ (fn_integral V SRF g fns E nV nS HV HS PV PS Fg FV FS f (acos u) NV NS)).
    rewrite cos_acos by lra. unfold kern, Rdiv. match goal with |- ?a = ?b => change (a = b :> R) end. ring.
  Qed.
  Lemma az_exists th : ex_RInt (fun ph => vol_exp V g f th ph * brdf_exp SRF g f th ph)%R 0 (2 * PI).
  Proof. eexists. apply (fn_integral V SRF g fns E nV nS HV HS PV PS Fg FV FS f th NV NS). Qed.
End Value.
