(** Witnesses for C41 and C65: the two backends on the same object. *)
From Coquelicot Require Import Coquelicot.
From Coq Require Import Lia List.
From Verif Require Import SpecScat SpecExp SpecInt Flip.
From Verif Require Export Properties23 Wit20.
Open Scope string_scope.
Open Scope nat_scope.
Open Scope list_scope.

(** ** The interaction integral if the two coefficients are numbers and mu has two rows (_calc.py:1089-1141) *)
Lemma k_Fint_rows x y mux mu tau a c r m : k_Fint 1 (x :: y :: nil) mux mu tau = Ok a -> k_mux 1 mu = Ok mux ->
  shp x = nil -> shp y = nil -> shp mu = m :: 2 :: nil -> length (shp tau) <= 2 -> r < 2 ->
  bget a (c :: r :: nil) = xadd (xmul (bget (pick r x y) nil) (xmul (xpow (bget mu (c :: r :: nil)) 1) (x_S2 (bget mu (c :: r :: nil)) (bget tau (c :: r :: nil)) 0))) (Fin 0%R).
Proof.
  unfold k_Fint. intros H Hm Sx Sy Smu Ht Hr.
  destruct (broadcast_arrays _) as [fn|] eqn:Eb; [cbn [rbind] in H|discriminate].
  destruct (k_S2 1 mu tau) as [s2|] eqn:E2; [cbn [rbind] in H|discriminate].
  destruct (nmul mux s2) as [mt|] eqn:Em; [cbn [rbind] in H|discriminate].
  destruct (stack fn) as [f|] eqn:Ef; [cbn [rbind] in H|discriminate].
  destruct (nmul f mt) as [p|] eqn:Ep; [cbn [rbind] in H|discriminate]. apply ok_eq in H. subst a.
  destruct (broadcast_arrays_spec _ _ Eb) as (sf & Esf & -> & Hsub).
  assert (A1 : shp (atleast_1d x) = 1 :: nil) by (unfold atleast_1d; now rewrite Sx).
  assert (A2 : shp (atleast_1d y) = 1 :: nil) by (unfold atleast_1d; now rewrite Sy).
  cbn [map] in Esf. rewrite A1, A2 in Esf. injection Esf as <-.
  assert (Ht' : length (shp tau) <= length (shp mu)) by (rewrite Smu; exact Ht).
  destruct (k_mux_shp _ _ _ Hm) as [_ Smux]. destruct (k_S2_rank _ _ _ _ E2 Ht') as (_ & s2s & Ss2 & Ls2).
  pose proof (stack_rank _ _ (broadcast_to (1 :: nil) (atleast_1d x)) Ef ltac:(left; reflexivity)) as Sf. cbn [map List.length shp broadcast_to app] in Sf.
  unfold nmul in Em, Ep. pose proof (shp_map2 _ _ _ _ Em) as Sm. rewrite Smux, Ss2 in Sm.
  apply bc_snoc in Sm; [|congruence]. destruct Sm as (um & xm & Sm & Um & Xm). apply bc_dim_same in Xm. subst xm.
  assert (Lum : length um = 2) by (rewrite (bc_shape_rank _ _ _ Um), Ls2, Smu; reflexivity).
  destruct um as [|u1 [|u2 [|]]]; try discriminate Lum. cbn [app] in Sm.
  pose proof (shp_map2 _ _ _ _ Ep) as Sp. rewrite Sf, Sm in Sp.
  assert (Q : exists v1 v2, shp p = v1 :: v2 :: 1 :: nil).
  { cbn [bc_shape] in Sp. destruct (bc_dim 1 u1) as [z1|]; [|discriminate Sp]. destruct (bc_dim 2 u2) as [z2|]; [|discriminate Sp].
    injection Sp as <-. eauto. }
  destruct Q as (v1 & v2 & Q).
  assert (E : bget (sum_axis0 p) (c :: r :: nil) = xadd (bget p (c :: r :: 0 :: nil)) (Fin 0%R)).
  { unfold sum_axis0. rewrite Q. cbn [removelast last seq List.length]. rewrite bget_mk. cbn [fold_right]. f_equal. unfold bget. rewrite Q. cbn [proj firstn app tl hd Nat.eqb]. reflexivity. }
  rewrite E. f_equal. rewrite (bget_map2 _ _ _ _ _ Ep), (bget_map2 _ _ _ _ _ Em). f_equal.
  - change (c :: r :: 0 :: nil) with ((c :: nil) ++ r :: 0 :: nil).
    assert (X : bget f (c :: r :: 0 :: nil) = bget f ((c :: nil) ++ r :: nil)).
    { unfold bget. rewrite Sf. reflexivity. }
    cbn [app] in *. rewrite X. change (c :: r :: nil) with ((c :: nil) ++ r :: nil).
    rewrite (stack_bget _ _ r (c :: nil) (broadcast_to (1 :: nil) (atleast_1d (pick r x y))) Ef).
    + rewrite bget_broadcast_to by (destruct r as [|[|]]; cbn [pick]; rewrite ?A1, ?A2; apply ble_sub, ble_refl).
      rewrite bget_atleast_1d. unfold bget. destruct r as [|[|]]; cbn [pick]; rewrite ?Sx, ?Sy; reflexivity.
    + destruct r as [|[|]]; [reflexivity|reflexivity|lia].
    + reflexivity.
  - change (c :: r :: 0 :: nil) with ((c :: r :: nil) ++ 0 :: nil).
    rewrite (k_mux_el _ _ _ _ _ Hm) by (rewrite ?Smu; auto). rewrite (k_S2_el _ _ _ _ _ _ E2) by (rewrite ?Smu; auto). reflexivity.
Qed.

Lemma call_const k args fv e0 e1 : call k args nil = Ok fv -> c_be k = Sympy -> c_exprs k = e0 :: e1 :: nil -> syms e0 = nil -> syms e1 = nil ->
  exists x y, fv = x :: y :: nil /\ shp x = nil /\ shp y = nil /\ bget y nil = evalX (fun _ => NaN) e1.
Proof.
  intros H Hb He S0 S1. unfold call in H. rewrite Hb, He in H. destruct (bind_sympy _ _ _) as [vals|]; [cbn [rbind] in H|discriminate].
  destruct (subset_b _ _); [|discriminate]. cbn [rmap] in H. unfold eval_sympy in H. rewrite S0, S1 in H. cbn [map bc_shapes fold_left rbind] in H.
  apply ok_eq in H. subst fv. eexists _, _. split; [reflexivity|]. split; [reflexivity|]. split; [reflexivity|].
  unfold bget. cbn [shp get proj]. apply Elem.evalX_ext. rewrite S1. intros s [].
Qed.
(** the second coefficient is 0: so is the contribution at the second row *)
Lemma Fint_zero w q o r k e0 e1 x c m first a : good w q -> obj (w_heap w) o = Ok r -> fnev_next (w_heap w) r = Ok (Some k) ->
  c_be k = Sympy -> c_exprs k = e0 :: e1 :: nil -> syms e0 = nil -> syms e1 = nil -> evalX (fun _ => NaN) e1 = Fin 0%R ->
  p_nmax (conf (w_heap w) r) = Ok 1 ->
  (forall b t, obs_angle w o b t -> b = T0 \/ b = TEx -> shp t = m :: 2 :: nil) -> (forall t, obs_param w o Tau t -> length (shp t) <= 2) ->
  at_point w o (c :: 1 :: nil) x -> (0 < cos (p_t0 x) < 1)%R -> (0 < cos (p_tex x) < 1)%R -> (0 < p_tau x)%R ->
  p_Fint (conf (w_heap w) r) (fnev_next (w_heap w) r) first = Ok a -> bget a (c :: 1 :: nil) = Fin 0%R.
Proof.
  intros G Hr Ek Hb He S0 S1 Z Nm Sh St P C0 C1 Tp H. assert (Hc : at_conf w o (conf (w_heap w) r) (fnev_next (w_heap w) r)) by (exists r; auto).
  set (C := conf (w_heap w) r) in *. rewrite Ek in H. unfold p_Fint in H.
  destruct (p_read C T0) as [t0|] eqn:R1; [cbn [rbind] in H|discriminate]. destruct (p_read C P0) as [p0|] eqn:R2; [cbn [rbind] in H|discriminate].
  destruct (p_read C TEx) as [tex|] eqn:R3; [cbn [rbind] in H|discriminate]. destruct (p_read C PEx) as [pex|]; [cbn [rbind] in H|discriminate].
  destruct (p_params C) as [kw|]; [cbn [rbind] in H|discriminate]. destruct (broadcast_arrays _) as [args|]; [cbn [rbind] in H|discriminate].
  destruct (call k args nil) as [fv|] eqn:Ec; [cbn [rbind] in H|discriminate]. rewrite Nm in H. cbn [rbind] in H.
  destruct (if first then p_mu0 C else p_muex C) as [mu|] eqn:Em; [cbn [rbind] in H|discriminate].
  destruct (k_mux 1 mu) as [mux|] eqn:Ex; [cbn [rbind] in H|discriminate]. destruct (p_val C Tau) as [tau|] eqn:Et; [cbn [rbind] in H|discriminate].
  destruct (call_const _ _ _ _ _ Ec Hb He S0 S1) as (x0 & y0 & -> & X0 & Y0 & Yv). rewrite Z in Yv.
  pose proof (Sh T0 t0 (proj2 (c_angle w q o _ _ G Hc T0 t0) R1) (or_introl eq_refl)) as Q1.
  pose proof (Sh TEx tex (proj2 (c_angle w q o _ _ G Hc TEx tex) R3) (or_intror eq_refl)) as Q3.
  assert (Smu : shp mu = m :: 2 :: nil).
  { destruct first; [unfold p_mu0 in Em; rewrite R1 in Em|unfold p_muex in Em; rewrite R3 in Em]; cbn [rbind] in Em; apply ok_eq in Em; subst mu; assumption. }
  rewrite (k_Fint_rows _ _ _ _ _ _ c 1 m H Ex X0 Y0 Smu); [|apply St, (c_param w q o _ _ G Hc), Et|lia].
  cbn [pick]. rewrite Yv, (el_param w q o _ _ G Hc _ x P _ _ Et).
  assert (Vm : exists u, bget mu (c :: 1 :: nil) = Fin u /\ (0 < u < 1)%R).
  { destruct first; [exists (cos (p_t0 x)); split; [exact (el_mu0 w q o _ _ G Hc _ x P _ Em)|exact C0]|exists (cos (p_tex x)); split; [exact (el_muex w q o _ _ G Hc _ x P _ Em)|exact C1]]. }
  destruct Vm as (u & -> & Hu). rewrite (x_S2_val u (p_tau x) Hu Tp), xpow_Fin. cbn [xmul xadd]. f_equal. ring.
Qed.
Lemma inter_zero w q o r fe x i s : good w q -> at_conf w o (conf (w_heap w) r) fe -> at_point w o i x -> (0 < cos (p_t0 x))%R -> (0 < cos (p_tex x))%R ->
  p_interaction (conf (w_heap w) r) fe = Ok s -> (forall first a, p_Fint (conf (w_heap w) r) fe first = Ok a -> bget a i = Fin 0%R) -> bget s i = Fin 0%R.
Proof.
  intros G Hc P C0 C1 H Z. destruct (p_interaction_inv _ _ _ H) as (i0 & mu0 & muex & tau & om & norm & bsf & f1 & f2 & (I1 & I2 & I3 & I4) & F1 & F2 & Om & No & Bs & K).
  rewrite (k_interaction_el _ _ _ _ _ _ _ _ _ _ i K), (Z _ _ F1), (Z _ _ F2), (el_I0 w o _ _ Hc i x P _ I1), (el_mu0 w q o _ _ G Hc i x P _ I2), (el_muex w q o _ _ G Hc i x P _ I3),
    (el_param w q o _ _ G Hc i x P _ _ I4), (el_param w q o _ _ G Hc i x P _ _ Om), (el_param w q o _ _ G Hc i x P _ _ No), (el_param w q o _ _ G Hc i x P _ _ Bs).
  unfold x_interaction. rewrite !neg_div by lra. cbn [xexp xmul xadd xsub xopp]. f_equal. ring.
Qed.

(** ** The same object on both backends: t_0 of shape (2, 2), isotropic volume and surface, everything else a number *)
Notation w2 seng := (wQ seng true (grid 1 (1/2)) (PNum (Fin (1/4)))).
Definition f2 (s : string) : R :=
  if String.eqb s "theta_0" then 1 else if String.eqb s "theta_ex" then 1 else if String.eqb s "phi_0" then 0
  else if String.eqb s "phi_ex" then (0 + PI) else if String.eqb s "tau" then 1
  else if String.eqb s "omega" then 1/3 else if String.eqb s "bsf" then 0 else 1/4.
Definition x2 : point := mk_point 2 1 1 1 (1/3) (1/4) 0 (phase_value f2 VI) (phase_value f2 SI).
Definition at2 : list nat := 0 :: 1 :: nil.
Lemma w2_good seng : good (w2 seng) (OCalc 0 nil). Proof. apply tidy_good, wQ_tidy. Qed.
Ltac obs_at j H := match type of H with
  | ?lhs = RetArr ?a => match goal with |- _ = ?v => let E := fresh in
      assert (E : match lhs with RetArr b => bget b j | _ => NaN end = v) by (vm_compute; reflexivity);
      rewrite H in E; exact E end
  end.
Lemma w2_named seng : named (w2 seng) 0 at2 f2.
Proof.
  unfold named, obs_angle. repeat split.
  all: try (unfold f2; cbn [String.eqb Ascii.eqb Bool.eqb]; intros a H; destruct seng; match goal with |- bget _ ?j = _ => obs_at j H end).
  intros d k a H Hk.
  assert (E : match snd (step (w2 seng) (OParamDict 0)) with RetDict d => map (fun kv => (fst kv, bget (snd kv) at2)) d | _ => nil end
      = ("bsf", Fin 0%R) :: ("tau", Fin 1) :: ("omega", Fin (1/3)) :: ("NormBRDF", Fin (1/4)) :: nil) by (destruct seng; vm_compute; reflexivity).
  rewrite H in E. clear H.
  assert (M : dget (map (fun kv => (fst kv, bget (snd kv) at2)) d) k = Some (bget a at2)).
  { clear E. induction d as [|[k' v] d IH]; [discriminate|]. simpl in *. destruct (String.eqb k k'); [injection Hk as ->; reflexivity|auto]. }
  rewrite E in M. clear E Hk. cbn [dget] in M. unfold f2.
  destruct (String.eqb_spec k "bsf") as [->|]; [injection M as <-; reflexivity|].
  destruct (String.eqb_spec k "tau") as [->|]; [injection M as <-; reflexivity|].
  destruct (String.eqb_spec k "omega") as [->|]; [injection M as <-; reflexivity|].
  destruct (String.eqb_spec k "NormBRDF") as [->|]; [injection M as <-; reflexivity|]. discriminate.
Qed.
Lemma w2_fun seng : obs_fun (w2 seng) 0 WV VI /\ obs_fun (w2 seng) 0 WSRF SI. Proof. apply wQ_rest. Qed.
Lemma w2_ok : ok_scat f2 VI /\ ok_scat f2 SI.
Proof. split; simpl; unfold ok_a, wd_a; simpl; rewrite ?Q2R_1', ?Q2R_Z; repeat split; try exact I; try (apply Rabs_le; lra). Qed.
Lemma w2_point seng : at_point (w2 seng) 0 at2 x2.
Proof.
  unfold at_point. split.
  { intros a (r & Hr & Ha).
    assert (E : match obj (w_heap (w2 seng)) 0 with Ok r => match deref (w_heap (w2 seng)) (r_I0 r) with Ok b => bget b at2 | _ => NaN end | _ => NaN end = Fin 2%R)
      by (destruct seng; vm_compute; reflexivity). rewrite Hr, Ha in E. exact E. }
  unfold obs_angle, obs_param, x2. cbn [p_I0 p_t0 p_tex p_tau p_omega p_norm p_bsfr p_vol p_brdf].
  do 6 (split; [intros a H; destruct seng; match goal with |- bget _ ?j = _ => obs_at j H end|]).
  split; intros a H.
  - apply (C48_documented_phase_functions (w2 seng) (OCalc 0 nil) 0 WV _ a at2 f2 (w2_good seng) H); [apply w2_fun|apply w2_named|apply w2_ok].
  - apply (C48_documented_phase_functions (w2 seng) (OCalc 0 nil) 0 WSRF _ a at2 f2 (w2_good seng) H); [apply w2_fun|apply w2_named|apply w2_ok].
Qed.
Lemma w2_usable : usable f2 VI /\ usable f2 SI.
Proof.
  split; (split; [simpl; intros s H; repeat (destruct H as [<-|H]); try contradiction; intros Z; repeat (destruct Z as [Z|Z]; [discriminate Z|]); exact Z|]);
  (split; [|exists 1; split; [reflexivity|lia]]); (split; [|constructor]); (constructor; [|constructor]); simpl; unfold wd_a; simpl; auto.
Qed.
Lemma w2_calc seng : exists a, snd (step (w2 seng) (OCalc 0 nil)) = RetArr a /\ shp (row a 0) = 2 :: 2 :: nil /\ nrows a = 4.
Proof.
  assert (O : forall p, match p with OSurface 0 nil | OVolume 0 nil | OInteraction 0 nil => true | _ => false end = true ->
    exists a, snd (step (w2 seng) p) = RetArr a /\ shp a = 2 :: 2 :: nil).
  { intros p Hp. assert (A : is_arr (snd (step (w2 seng) p)) = true /\ match snd (step (w2 seng) p) with RetArr a => shp a | _ => nil end = 2 :: 2 :: nil).
    { destruct p as [| | | | | | | | | | | | | | |o kw|o kw|o kw| | | | | | | | | |]; try discriminate Hp; try (destruct o; [|discriminate Hp]; destruct kw; [|discriminate Hp]); destruct seng; split; vm_compute; reflexivity. }
    destruct A as [A B]. destruct (is_arr_ex _ A) as [a Ha]. exists a. split; [exact Ha|]. now rewrite Ha in B. }
  destruct (O (OSurface 0 nil) eq_refl) as (s & Es & Ss). destruct (O (OVolume 0 nil) eq_refl) as (v & Ev & Sv). destruct (O (OInteraction 0 nil) eq_refl) as (ii & Ei & Si).
  assert (T : exists tau, obs_param (w2 seng) 0 Tau tau /\ shp tau <> nil).
  { unfold obs_param. assert (A : is_arr (snd (step (w2 seng) (OReadParam 0 Tau))) = true /\ match snd (step (w2 seng) (OReadParam 0 Tau)) with RetArr a => shp a | _ => nil end = 1 :: nil) by (destruct seng; split; vm_compute; reflexivity).
    destruct A as [A B]. destruct (is_arr_ex _ A) as [a Ha]. exists a. split; [exact Ha|]. rewrite Ha in B. rewrite B. discriminate. }
  destruct T as (tau & Ht & Nt). destruct (calc_exists (w2 seng) 0 s v ii tau (w2_good seng) Es Ev Ei Ht Nt) as (a & Ha & Sa); [congruence..|].
  exists a. split; [exact Ha|]. split; [rewrite Sa; exact Ss|].
  destruct (wQ_rest seng true (grid 1 (1/2)) (PNum (Fin (1/4)))) as ((r & Hr & Q & _) & _).
  destruct (calc_shape _ _ _ _ (w2_good seng) Hr Ha) as [C X].
  destruct (p_calc_rows _ _ _ C) as (t' & b & is & i0 & mu0 & iv & jj & _ & _ & _ & _ & _ & _ & _ & _ & _ & S & _).
  unfold nrows. rewrite S, last_last. unfold nrow. cbn [conf c_intQ]. now rewrite Q.
Qed.
Lemma w2_cos : (0 < cos (p_t0 x2) < 1)%R /\ (0 < cos (p_tex x2) < 1)%R /\ (0 < p_tau x2)%R.
Proof. unfold x2. cbn [p_t0 p_tex p_tau]. pose proof cos1_lt. assert (0 < cos 1)%R by (apply cos_gt_0; pose proof PI_RGT_0; pose proof PI2_1; lra). lra. Qed.
(** sympy: the element of the interaction row at the second time is 0 *)
Lemma w2_sympy a : snd (step (w2 false) (OCalc 0 nil)) = RetArr a -> shp (row a 0) = 2 :: 2 :: nil -> get (row a 3) at2 = Fin 0%R.
Proof.
  intros Ha Sa. destruct (wQ_rest false true (grid 1 (1/2)) (PNum (Fin (1/4)))) as ((r & Hr & Q & Hsg & Hdb) & _).
  destruct (calc_shape _ _ _ _ (w2_good false) Hr Ha) as [C _]. destruct w2_cos as (C0 & C1 & Tp).
  assert (Hc : at_conf (w2 false) 0 (conf (w_heap (w2 false)) r) (fnev_next (w_heap (w2 false)) r)) by (exists r; auto).
  assert (Vi : valid_idx (shp (row a 0)) at2) by (rewrite Sa; repeat constructor).
  destruct (row3 (w2 false) _ 0 _ _ (w2_good false) Hc at2 x2 (w2_point false) false Hsg ltac:(discriminate) a C Vi Q Tp) as (s & Es & _ & Hv).
  rewrite (Hv 0%R); [cbn [conf c_dB]; rewrite Hdb; unfold in_units, unit_factor; f_equal; ring|].
  apply (inter_zero (w2 false) _ 0 r _ x2 at2 s (w2_good false) Hc (w2_point false) (proj1 C0) (proj1 C1) Es).
  assert (K : match obj (w_heap (w2 false)) 0 with Ok r => match fnev_next (w_heap (w2 false)) r with
    Ok (Some k) => match c_be k, c_exprs k with Sympy, e0 :: e1 :: nil => match syms e0, syms e1 with nil, nil =>
      match e1 with EAdd u (EMul (ENum q) v) => match u, v with
        EMul (EMul (EMul (ENum q1) EPi) (EDiv (ENum q2) (EMul (ENum q3) EPi))) (EDiv (ENum q4) EPi),
        EMul (EMul (EMul (ENum q1') EPi) (EDiv (ENum q2') (EMul (ENum q3') EPi))) (EDiv (ENum q4') EPi) =>
        Some ((q, q1, q2), (q3, q4), (q1', q2', q3', q4')) | _, _ => None end | _ => None end | _, _ => None end | _, _ => None end | _ => None end | _ => None end
    = Some ((- (1), 2, 1), (4, 1), (2, 1, 4, 1))%Q) by (vm_compute; reflexivity).
  assert (Nm : match obj (w_heap (w2 false)) 0 with Ok r => match p_nmax (conf (w_heap (w2 false)) r) with Ok n => n | _ => 0 end | _ => 0 end = 1) by (vm_compute; reflexivity).
  rewrite Hr in K, Nm. destruct (p_nmax _) as [n|] eqn:En in Nm; [subst n|discriminate Nm].
  destruct (fnev_next _ r) as [[k|]|] eqn:Ek; try discriminate K. destruct (c_be k) eqn:Hb; [|discriminate K].
  destruct (c_exprs k) as [|e0 [|e1 [|]]] eqn:He; try discriminate K. destruct (syms e0) eqn:S0; [|discriminate K]. destruct (syms e1) eqn:S1; [|discriminate K].
  intros first b Fb. rewrite <- Ek in Fb.
  apply (Fint_zero (w2 false) _ 0 r k e0 e1 x2 0 2 first b (w2_good false) Hr Ek Hb He S0 S1); auto using w2_point.
  - destruct e1 as [| | |u v| | | | | | | | | |]; try discriminate K. destruct v as [| | | |v1 v| | | | | | | | |]; try discriminate K. destruct v1; try discriminate K.
    assert (U : exists q1 q2 q3 q4, u = EMul (EMul (EMul (ENum q1) EPi) (EDiv (ENum q2) (EMul (ENum q3) EPi))) (EDiv (ENum q4) EPi)).
    { repeat match type of K with context [match ?z with _ => _ end] => is_var z; destruct z; try discriminate K end. eauto. }
    destruct U as (q1 & q2 & q3 & q4 & ->).
    assert (U : exists q1 q2 q3 q4, v = EMul (EMul (EMul (ENum q1) EPi) (EDiv (ENum q2) (EMul (ENum q3) EPi))) (EDiv (ENum q4) EPi)).
    { repeat match type of K with context [match ?z with _ => _ end] => is_var z; destruct z; try discriminate K end. eauto. }
    destruct U as (q1' & q2' & q3' & q4' & ->).
    injection K as -> -> -> -> -> -> -> -> ->.
    rewrite (evalX_Fin _ _ (fun _ => 0%R)) by (try (intros s0 []); cbn [wd evalR]; rewrite ?Q2R_Z; pose proof PI_RGT_0; repeat split; try exact I; replace (Q2R 4) with 4%R by (unfold Q2R; simpl; field); lra).
    f_equal. cbn [evalR]. replace (Q2R (-(1))) with (-1)%R by (unfold Q2R; simpl; field). ring.
  - intros c t Ht [->| ->]; unfold obs_angle in Ht.
    + assert (X : out_shape (snd (step (w2 false) (OReadAngle 0 T0))) = Some (2 :: 2 :: nil)) by (vm_compute; reflexivity). rewrite Ht in X. now injection X.
    + assert (X : out_shape (snd (step (w2 false) (OReadAngle 0 TEx))) = Some (2 :: 2 :: nil)) by (vm_compute; reflexivity). rewrite Ht in X. now injection X.
  - intros t Ht. unfold obs_param in Ht. assert (X : out_shape (snd (step (w2 false) (OReadParam 0 Tau))) = Some (1 :: nil)) by (vm_compute; reflexivity).
    rewrite Ht in X. injection X as ->. simpl. lia.
Qed.
(** symengine: the documented integral, which is positive *)
Lemma iso_pos mu tau a b c F : (0 < cos mu < 1)%R -> (0 < tau)%R -> is_Fint (expansion_value f2 VI) (expansion_value f2 SI) tau mu a b c F -> (0 < F)%R.
Proof.
  intros Hm Ht [_ H].
  assert (E : forall t t' p p', expansion_value f2 VI t t' p p' = (1 / (4 * PI))%R /\ expansion_value f2 SI t t' p p' = (1 / PI)%R).
  { intros. unfold expansion_value, VI, SI. change (nc_of (VIso a_vol)) with 1. change (nc_of (SIso a_srf)) with 1. cbn [coef_value leg_series]. unfold c_isotropic, c_lambert, delta. assert (L : forall z, legP 0 z = 1%R) by reflexivity. rewrite !L. cbn [Nat.eqb]. split; ring. }
  pose proof PI_RGT_0 as Pp.
  apply (weight_int_pos (cos mu) tau (fun _ => (1 / (4 * PI) * (1 / PI) * (2 * PI))%R) F Hm Ht).
  - intros _ _. apply Rmult_lt_0_compat; [|lra]. apply Rmult_lt_0_compat; apply Rdiv_lt_0_compat; lra.
  - intros u. apply continuous_const.
  - eapply is_RInt_ext; [|exact H]. intros u _. cbn beta. f_equal.
    rewrite (RInt_ext _ (fun _ => (1 / (4 * PI) * (1 / PI))%R)) by (intros y _; destruct (E (PI - mu)%R (acos u) a y) as [-> _]; destruct (E (acos u) b y c) as [_ ->]; reflexivity).
    rewrite RInt_const. unfold scal. simpl. unfold mult. simpl. ring.
Qed.
Lemma w2_flat : flat (w2 true) 0.
Proof.
  unfold flat, obs_angle, obs_param. exists 2. split; [|split; [|split; [|right; split]]].
  - intros b a H. assert (E : match snd (step (w2 true) (OReadAngle 0 b)) with RetArr a => length (shp a) <=? 2 | _ => false end = true) by (destruct b; vm_compute; reflexivity).
    rewrite H in E. now apply Nat.leb_le.
  - intros a H. assert (E : match snd (step (w2 true) (OReadParam 0 Tau)) with RetArr a => length (shp a) <=? 2 | _ => false end = true) by (vm_compute; reflexivity).
    rewrite H in E. now apply Nat.leb_le.
  - intros d k a H Hk. assert (E : match snd (step (w2 true) (OParamDict 0)) with RetDict d => forallb (fun kv => length (shp (snd kv)) <=? 2) d | _ => false end = true) by (vm_compute; reflexivity).
    rewrite H in E. rewrite forallb_forall in E. apply Nat.leb_le. exact (E _ Hk).
  - intros a [H|H].
    + assert (E : match snd (step (w2 true) (OReadAngle 0 T0)) with RetArr a => length (shp a) =? 2 | _ => false end = true) by (vm_compute; reflexivity). rewrite H in E. now apply Nat.eqb_eq.
    + assert (E : match snd (step (w2 true) (OReadAngle 0 TEx)) with RetArr a => length (shp a) =? 2 | _ => false end = true) by (vm_compute; reflexivity). rewrite H in E. now apply Nat.eqb_eq.
  - assert (E : match obj (w_heap (w2 true)) 0 with Ok r => match fnev_next (w_heap (w2 true)) r with Ok (Some k) => match c_be k with Symengine => true | _ => false end | _ => false end | _ => false end = true) by (vm_compute; reflexivity).
    destruct (obj (w_heap (w2 true)) 0) as [r|] eqn:Hr; [|discriminate E]. destruct (fnev_next (w_heap (w2 true)) r) as [[k|]|] eqn:Hk; try discriminate E.
    exists r, k. split; [exact Hr|]. split; [exact Hk|]. left. destruct (c_be k); [discriminate E|reflexivity].
Qed.
Lemma w2_symengine a : snd (step (w2 true) (OCalc 0 nil)) = RetArr a -> shp (row a 0) = 2 :: 2 :: nil -> nrows a = 4 ->
  exists v, get (row a 3) at2 = Fin v /\ (0 < v)%R.
Proof.
  intros Ha Sa Nr. destruct (wQ_rest true true (grid 1 (1/2)) (PNum (Fin (1/4)))) as (Fl & _ & Own & OV & OS). destruct w2_cos as (C0 & C1 & Tp).
  assert (S : sample (w2 true) 0 at2 x2 f2 VI SI).
  { split; [apply w2_point|]. split; [apply w2_named|]. split; [exact OV|]. split; [exact OS|]. split; [apply w2_usable|]. split; [apply w2_usable|]. split; [apply w2_flat|].
    split; [exact Own|]. split; [exact C0|]. split; [exact C1|exact Tp]. }
  assert (M : obs_mode (w2 true) 0 true) by (eexists; split; [vm_compute; reflexivity|reflexivity]).
  assert (Y : returns_interaction (w2 true) (OCalc 0 nil) 0 at2 (get (row a 3) at2)).
  { exists a. split; [exact Ha|]. right. split; [eexists; reflexivity|]. split; [rewrite Sa; repeat constructor|]. split; [exact Nr|reflexivity]. }
  destruct (C30_monostatic_partial (w2 true) (OCalc 0 nil) 0 at2 _ true false false x2 f2 VI SI (wQ_tidy true true _ _) Y
    (flags_after _ _ _ _ _ (w2_good true) Fl) (mode_after _ _ _ (w2_good true) M) (sample_after _ _ _ _ _ _ _ (w2_good true) S) ltac:(discriminate)) as (F1 & F2 & E & I1 & I2).
  pose proof (iso_pos _ _ _ _ _ _ C0 Tp I1) as P1. pose proof (iso_pos _ _ _ _ _ _ C1 Tp I2) as P2.
  eexists. split; [exact E|]. unfold unit_factor, interaction_value. 
  pose proof (exp_pos (- p_tau x2 / cos (p_tex x2))) as X1. pose proof (exp_pos (- p_tau x2 / cos (p_t0 x2))) as X2.
  set (e1 := exp (- p_tau x2 / cos (p_tex x2))) in *. set (e2 := exp (- p_tau x2 / cos (p_t0 x2))) in *.
  assert (0 < e1 * F1 + e2 * F2)%R by (apply Rplus_lt_0_compat; apply Rmult_lt_0_compat; assumption).
  rewrite Rmult_1_r. unfold x2. cbn [p_I0 p_t0 p_omega p_norm p_bsfr]. unfold x2 in C0. cbn [p_t0] in C0.
  repeat apply Rmult_lt_0_compat; lra.
Qed.
Lemma wQ_same iq t norm : same_but_backend (wQ false iq t (PNum (Fin norm))) 0 (wQ true iq t (PNum (Fin norm))) 0.
Proof.
  unfold same_but_backend. eexists. eexists. split; [vm_compute; reflexivity|]. split; [vm_compute; reflexivity|].
  do 10 (split; [vm_compute; reflexivity|]).
  split; [intros [| | |]; vm_compute; reflexivity|]. split; [vm_compute; reflexivity|].
  split; [intros [| | |]; vm_compute; reflexivity|]. eexists. eexists. split; [vm_compute; reflexivity|]. split; [vm_compute; reflexivity|]. intros s. reflexivity.
Qed.
Lemma wQ_on seng iq t norm : runs_on (wQ seng iq t norm) (if seng then "symengine" else "sympy").
Proof. destruct seng; vm_compute; reflexivity. Qed.
Lemma wQ_tau seng iq t norm : tau_definite (wQ seng iq t norm) 0.
Proof.
  right. intros u Hu. unfold obs_param in Hu. assert (X : out_shape (snd (step (wQ seng iq t norm) (OReadParam 0 Tau))) = Some (1 :: nil)) by (destruct seng; vm_compute; reflexivity).
  rewrite Hu in X. injection X as X. rewrite X. discriminate.
Qed.

(** *** C41 as stated fails twice.  (1) With three times sympy raises ValueError where symengine returns the result. *)
Lemma w3_accepted : acceptable (wQ true true grid3 (PNum (Fin (1/4)))) 0 true (2 :: 3 :: nil).
Proof.
  destruct (wQ_rest true true grid3 (PNum (Fin (1/4)))) as (H1 & H2 & H3 & H4 & H5).
  split; [apply wQ_tidy|]. split; [exact H2|]. split; [exact H3|]. split; [exists false, false; exact H1|].
  split; [exists VI, SI; split; [exact H4|]; split; [exact H5|]; split; apply wQ_evaluable|].
  split; [eapply shapes_apart; [apply wQ_shapes|reflexivity]|]. split; [eapply shapes_fit; [apply wQ_shapes|vm_compute; reflexivity]|].
  split; [eapply shapes_carried; [apply wQ_shapes|reflexivity]|]. intros _. split; [eapply shapes_lead; [apply wQ_shapes|reflexivity|reflexivity]|]. right.
  assert (E : match obj (w_heap (wQ true true grid3 (PNum (Fin (1/4))))) 0 with Ok r => match fnev_next (w_heap (wQ true true grid3 (PNum (Fin (1/4))))) r with Ok (Some k) => match c_be k with Symengine => true | _ => false end | _ => false end | _ => false end = true) by (vm_compute; reflexivity).
  destruct (obj _ 0) as [r|] eqn:Hr; [|discriminate E]. destruct (fnev_next _ r) as [[k|]|] eqn:Hk; try discriminate E.
  exists r, k. split; [exact Hr|]. split; [exact Hk|]. left. destruct (c_be k); [discriminate E|reflexivity].
Qed.
Theorem C41_refuted : ~ C41_intended.
Proof.
  intros Q. destruct (acceptable_returns _ _ _ _ w3_accepted) as (a & Ha & _).
  destruct (wQ_rest false true grid3 (PNum (Fin (1/4)))) as (_ & N1 & _). destruct (wQ_rest true true grid3 (PNum (Fin (1/4)))) as (_ & N2 & _).
  destruct (Q _ 0 _ 0 (wQ_tidy false true grid3 _) (wQ_tidy true true grid3 _) (wQ_on false true grid3 _) (wQ_on true true grid3 _) (wQ_same true grid3 (1/4)) N1 N2 (wQ_tau false true grid3 _)) as [_ H].
  destruct (H a Ha) as (b & Hb & _). rewrite wQ_raises in Hb. discriminate Hb.
Qed.
Print Assumptions C41_refuted.
(** (2) With two times both return a result, but under sympy the interaction contribution at the second time is
    0 (it is multiplied with the second coefficient function), under symengine it is positive. *)
Theorem C41_values_refuted : ~ C41_values_intended.
Proof.
  intros Q. destruct (w2_calc false) as (a & Ha & Sa & Na). destruct (w2_calc true) as (b & Hb & Sb & Nb).
  destruct (wQ_rest false true (grid 1 (1/2)) (PNum (Fin (1/4)))) as (_ & N1 & _). destruct (wQ_rest true true (grid 1 (1/2)) (PNum (Fin (1/4)))) as (_ & N2 & _).
  assert (Sk : forall k, shp (row b k) = 2 :: 2 :: nil) by (intros k; rewrite <- Sb; reflexivity).
  assert (Sk' : forall k, shp (row a k) = 2 :: 2 :: nil) by (intros k; rewrite <- Sa; reflexivity).
  assert (Vi : valid_idx (2 :: 2 :: nil) at2) by (repeat constructor).
  pose proof (Q _ 0 _ 0 a b (wQ_tidy false true _ _) (wQ_tidy true true _ _) (wQ_on false true _ _) (wQ_on true true _ _) (wQ_same true (grid 1 (1/2)) (1/4)) N1 N2 (wQ_tau false true _ _) Ha Hb 3 at2) as X.
  rewrite Nb, Sk in X. specialize (X ltac:(lia) Vi). unfold bget in X. rewrite Sk', proj_valid in X by exact Vi.
  rewrite (w2_sympy a Ha Sa) in X. destruct (w2_symengine b Hb Sb Nb) as (v & Ev & Pv). rewrite Ev in X. injection X as X. lra.
Qed.
Print Assumptions C41_values_refuted.

(** the hypotheses of C65_backend_agreement (and with them those of C41_values_partial): a phase function with a
    parameter, interaction included, one object on each backend *)
Definition wB (seng : bool) : world := fst (run (init seng true) (histZ 1 (1/2) 1 (1/2))).
Lemma wB_tidy seng : tidy (wB seng) (OCalc 0 nil).
Proof.
  exists seng, (histZ 1 (1/2) 1 (1/2)). split; [|split; [|reflexivity]].
  - unfold histZ. cbn [app]. repeat (split; [try exact I|]); try exact I; try apply adm_nil; intros [].
  - unfold histZ. cbn [app]. repeat (constructor; [split; [intros []|first [exact I|discriminate|repeat split; discriminate]]|]); constructor.
Qed.
Definition fpB (p : pname) : list nat := match p with Bsf => nil | Tau => 1 :: 2 :: nil | _ => 1 :: nil end.
Lemma wB_shapes seng : shapes_are (wB seng) 0 (fun b => match b with T0 | TEx => 2 :: 2 :: nil | _ => 1 :: nil end) fpB nil
  (("bsf", nil) :: ("tau", 1 :: 2 :: nil) :: ("omega", 1 :: nil) :: ("NormBRDF", 1 :: nil) :: ("t", 1 :: nil) :: nil).
Proof. split; [|split; [|split]]; [intros [| | |]; destruct seng; vm_compute; reflexivity|intros [| | |]; destruct seng; vm_compute; reflexivity|destruct seng; vm_compute; reflexivity|destruct seng; vm_compute; reflexivity]. Qed.
Lemma wB_same : same_but_backend (wB false) 0 (wB true) 0.
Proof.
  unfold same_but_backend. eexists. eexists. split; [vm_compute; reflexivity|]. split; [vm_compute; reflexivity|].
  do 10 (split; [vm_compute; reflexivity|]).
  split; [intros [| | |]; vm_compute; reflexivity|]. split; [vm_compute; reflexivity|].
  split; [intros [| | |]; vm_compute; reflexivity|]. eexists. eexists. split; [vm_compute; reflexivity|]. split; [vm_compute; reflexivity|]. intros s. reflexivity.
Qed.
Lemma wB_fills seng : fn_fills (wB seng) 0.
Proof.
  assert (E : match obj (w_heap (wB seng)) 0 with Ok r => match fnev_next (w_heap (wB seng)) r with Ok (Some k) => 
     match c_be k with Symengine => true | _ => existsb (fun e => negb (match syms e with nil => true | _ => false end)) (c_exprs k) end | _ => false end | _ => false end = true) by (destruct seng; vm_compute; reflexivity).
  destruct (obj _ 0) as [r|] eqn:Hr; [|discriminate E]. destruct (fnev_next _ r) as [[k|]|] eqn:Hk; try discriminate E.
  exists r, k. split; [exact Hr|]. split; [exact Hk|]. unfold fills. destruct (c_be k); [|now left]. right.
  apply existsb_exists in E. destruct E as (e & He & Ne). apply Exists_exists. exists e. split; [exact He|]. intros Z. rewrite Z in Ne. discriminate Ne.
Qed.
Lemma wB_acceptable seng : acceptable (wB seng) 0 true (2 :: 2 :: nil).
Proof.
  split; [apply wB_tidy|]. split; [left; eexists; split; [destruct seng; vm_compute; reflexivity|reflexivity]|].
  split; [eexists; split; [destruct seng; vm_compute; reflexivity|split; reflexivity]|].
  split; [exists false, false; eexists; split; [destruct seng; vm_compute; reflexivity|auto]|].
  split. { exists VC, SC. split; [eexists; split; [destruct seng; vm_compute; reflexivity|reflexivity]|]. split; [eexists; split; [destruct seng; vm_compute; reflexivity|reflexivity]|].
    split; (eapply shapes_evaluable with (n := 2); [apply wB_shapes|constructor; [intros c a; discriminate|constructor]|reflexivity|lia|]);
    simpl; intros x H; repeat (destruct H as [<-|H]); try contradiction; (split; [intros Z; repeat (destruct Z as [Z|Z]; [discriminate Z|]); exact Z|simpl; tauto]). }
  split; [eapply shapes_apart; [apply wB_shapes|reflexivity]|]. split; [eapply shapes_fit; [apply wB_shapes|vm_compute; reflexivity]|].
  split; [eapply shapes_carried; [apply wB_shapes|reflexivity]|]. intros _. split; [eapply shapes_lead; [apply wB_shapes|reflexivity|reflexivity]|]. right. apply wB_fills.
Qed.
Lemma wB_tau seng : tau_definite (wB seng) 0.
Proof.
  right. intros u Hu. unfold obs_param in Hu. assert (X : out_shape (snd (step (wB seng) (OReadParam 0 Tau))) = Some (1 :: 2 :: nil)) by (destruct seng; vm_compute; reflexivity).
  rewrite Hu in X. injection X as X. rewrite X. discriminate.
Qed.
Example C65_nonvacuous : exists w1 o1 w2 o2 T, length T = 2 /\ runs_on w1 "sympy" /\ runs_on w2 "symengine" /\
  same_but_backend w1 o1 w2 o2 /\ acceptable w1 o1 true T /\ acceptable w2 o2 true T /\ tau_definite w1 o1.
Proof.
  exists (wB false), 0, (wB true), 0, (2 :: 2 :: nil). split; [reflexivity|]. split; [vm_compute; reflexivity|]. split; [vm_compute; reflexivity|].
  split; [apply wB_same|]. split; [apply wB_acceptable|]. split; [apply wB_acceptable|apply wB_tau].
Qed.
Example C41_nonvacuous : exists w1 o1 w2 o2 a1 a2, tidy w1 (OCalc o1 nil) /\ tidy w2 (OCalc o2 nil) /\ runs_on w1 "sympy" /\ runs_on w2 "symengine" /\
  same_but_backend w1 o1 w2 o2 /\ obs_flags w1 o1 true false false /\ flat w1 o1 /\ flat w2 o2 /\ tau_definite w1 o1 /\
  snd (step w1 (OCalc o1 nil)) = RetArr a1 /\ snd (step w2 (OCalc o2 nil)) = RetArr a2.
Proof.
  assert (F : forall b, flat (wB b) 0) by (intros b; destruct (wB_acceptable b) as (_ & _ & _ & _ & _ & _ & Fit & _ & Ld); eapply fit_flat; eauto).
  destruct (acceptable_returns _ _ _ _ (wB_acceptable false)) as (a1 & E1 & _). destruct (acceptable_returns _ _ _ _ (wB_acceptable true)) as (a2 & E2 & _).
  exists (wB false), 0, (wB true), 0, a1, a2. split; [apply wB_tidy|]. split; [apply wB_tidy|]. split; [vm_compute; reflexivity|]. split; [vm_compute; reflexivity|].
  split; [apply wB_same|]. split; [eexists; split; [vm_compute; reflexivity|auto]|]. split; [apply F|]. split; [apply F|]. split; [apply wB_tau|]. split; [exact E1|exact E2].
Qed.

(** *** C21/C30: calc() can return a wrong number without any error.  Under sympy, for t_0 of shape (2, n) and isotropic
    volume and surface, the interaction contribution is not the documented integral. *)
Theorem C21_silently_wrong : exists w o a i x f V SRF,
  tidy w (OCalc o nil) /\ snd (step w (OCalc o nil)) = RetArr a /\ obs_flags w o true false false /\ obs_mode w o true /\
  at_point w o i x /\ named w o i f /\ obs_fun w o WV V /\ obs_fun w o WSRF SRF /\ usable f V /\ usable f SRF /\ own_fn w o /\
  (0 < cos (p_t0 x) < 1)%R /\ (0 < cos (p_tex x) < 1)%R /\ (0 < p_tau x)%R /\ valid_idx (shp (row a 0)) i /\
  forall F1 F2,
    is_Fint (expansion_value f V) (expansion_value f SRF) (p_tau x) (p_t0 x) (f "phi_0") (p_tex x) (f "phi_ex") F1 ->
    is_Fint (expansion_value f V) (expansion_value f SRF) (p_tau x) (p_tex x) (f "phi_ex") (p_t0 x) (f "phi_0") F2 ->
    get (row a 3) i <> Fin (interaction_value x F1 F2).
Proof.
  destruct (w2_calc false) as (a & Ha & Sa & Na). destruct (wQ_rest false true (grid 1 (1/2)) (PNum (Fin (1/4)))) as (Fl & _ & Own & OV & OS). destruct w2_cos as (C0 & C1 & Tp).
  exists (w2 false), 0, a, at2, x2, f2, VI, SI. split; [apply wQ_tidy|]. split; [exact Ha|]. split; [exact Fl|].
  split; [eexists; split; [vm_compute; reflexivity|reflexivity]|]. split; [apply w2_point|]. split; [apply w2_named|]. split; [exact OV|]. split; [exact OS|].
  split; [apply w2_usable|]. split; [apply w2_usable|]. split; [exact Own|]. split; [exact C0|]. split; [exact C1|]. split; [exact Tp|]. split; [rewrite Sa; repeat constructor|].
  intros F1 F2 I1 I2 X. rewrite (w2_sympy a Ha Sa) in X. injection X as X.
  pose proof (iso_pos _ _ _ _ _ _ C0 Tp I1) as P1. pose proof (iso_pos _ _ _ _ _ _ C1 Tp I2) as P2. unfold interaction_value in X.
  pose proof (exp_pos (- p_tau x2 / cos (p_tex x2))) as X1. pose proof (exp_pos (- p_tau x2 / cos (p_t0 x2))) as X2.
  set (e1 := exp (- p_tau x2 / cos (p_tex x2))) in *. set (e2 := exp (- p_tau x2 / cos (p_t0 x2))) in *.
  assert (0 < e1 * F1 + e2 * F2)%R by (apply Rplus_lt_0_compat; apply Rmult_lt_0_compat; assumption).
  unfold x2 in X at 1 2 3 4 5. cbn [p_I0 p_t0 p_omega p_norm p_bsfr] in X. unfold x2 in C0. cbn [p_t0] in C0.
  assert (0 < 1/4 * (1 - 0) * (2 * cos 1 * (1/3) * (e1 * F1 + e2 * F2)))%R by (repeat apply Rmult_lt_0_compat; lra). lra.
Qed.
Print Assumptions C21_silently_wrong.
