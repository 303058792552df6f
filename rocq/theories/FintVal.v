(** The interaction integral, as a real number: the closed form of _S2_mu / _calc_Fint
    (_calc.py:1067-1141) is the integral over the hemisphere. *)
From Coquelicot Require Import Coquelicot.
From Verif Require Import ExpInt.
From Coq Require Import Lia List.
From Verif Require Import FnInt.
From Verif Require Export FnUse.
Open Scope string_scope.
Open Scope nat_scope.
Open Scope list_scope.

(** one coefficient more than powers of mu: the second is multiplied with the first power (n = 1) *)
Lemma k_Fint_el1 a b mux mu tau r idx : k_Fint 1 (a :: b :: nil) mux mu tau = Ok r -> k_mux 1 mu = Ok mux ->
  length (shp tau) <= length (shp mu) -> bc_rank (map atleast_1d (a :: b :: nil)) = length (shp mu) ->
  let m := xmul (xpow (bget mu idx) 1) (x_S2 (bget mu idx) (bget tau idx) 0) in
  bget r idx = xadd (xmul (bget a idx) m) (xadd (xmul (bget b idx) m) (Fin 0%R)) /\
  length (shp r) = length (shp mu).
Proof.
  unfold k_Fint. intros H Hm Ht Hr. set (fns := a :: b :: nil) in *. set (n := 1) in *. assert (Hn : length fns = 2) by reflexivity.
  destruct (broadcast_arrays _) as [fn|] eqn:Eb; [cbn [rbind] in H|discriminate].
  destruct (k_S2 n mu tau) as [s2|] eqn:E2; [cbn [rbind] in H|discriminate].
  destruct (nmul mux s2) as [mt|] eqn:Em; [cbn [rbind] in H|discriminate].
  destruct (stack fn) as [f|] eqn:Ef; [cbn [rbind] in H|discriminate].
  destruct (nmul f mt) as [p|] eqn:Ep; [cbn [rbind] in H|discriminate]. apply ok_eq in H. subst r.
  destruct (broadcast_arrays_spec _ _ Eb) as (sf & Esf & Efn & Hsub). subst fn.
  pose proof (bc_shapes_rank _ _ Esf) as Lsf. rewrite Hr in Lsf.
  destruct (k_mux_shp _ _ _ Hm) as [Hn0 Smux]. destruct (k_S2_rank _ _ _ _ E2 Ht) as (_ & s2s & Ss2 & Ls2).
  assert (Lf : length (map (broadcast_to sf) (map atleast_1d fns)) = 2) by reflexivity.
  assert (Sf : shp f = sf ++ (2 :: nil)).
  { rewrite (stack_rank _ _ (broadcast_to sf (atleast_1d a)) Ef) by (left; reflexivity). reflexivity. }
  unfold nmul in Em, Ep.
  pose proof (shp_map2 _ _ _ _ Em) as Sm. rewrite Smux, Ss2 in Sm.
  apply bc_snoc in Sm; [|congruence]. destruct Sm as (um & xm & Sm & Um & Xm). apply bc_dim_same in Xm. subst xm.
  pose proof (shp_map2 _ _ _ _ Ep) as Sp. rewrite Sf, Sm in Sp.
  assert (Lum : length um = length (shp mu)) by (rewrite (bc_shape_rank _ _ _ Um); lia).
  apply bc_snoc in Sp; [|congruence]. destruct Sp as (up & xp & Sp & Up & Xp).
  assert (X2 : xp = 2) by (cbv in Xp; inversion Xp; reflexivity). subst xp.
  assert (Lup : length up = length (shp mu)) by (rewrite (bc_shape_rank _ _ _ Up); lia).
  assert (Bmu : sub (shp mu) up).
  { eapply sub_trans; [eapply sub_l; exact Um|]. eapply sub_r; exact Up. }
  assert (Bf : sub sf up) by (eapply sub_l; exact Up).
  assert (Btau : sub (shp tau) up).
  { eapply sub_trans; [|eapply sub_r; exact Up]. eapply sub_trans; [|eapply sub_r; exact Um].
    clear -E2 Ss2 Ht Ls2. unfold k_S2 in E2.
    destruct (k_hlp1 mu tau) as [h|] eqn:Eh; [cbn [rbind] in E2|discriminate].
    destruct (rmap _ _) as [rows|] eqn:Er; [cbn [rbind] in E2|discriminate].
    destruct (stack rows) as [s|] eqn:Es; [cbn [rbind] in E2|discriminate].
    unfold nadd in E2. apply map2_ble in E2. destruct E2 as [_ B]. rewrite Ss2 in B.
    assert (ble (shp tau) (shp h)).
    { clear -Eh. unfold k_hlp1 in Eh. repeat rb Eh. unfold nadd, nsub, nmul, ndiv in *.
      repeat match goal with E : map2 _ _ _ = Ok _ |- _ => apply map2_ble in E; simpl in E; destruct E as [? ?] end.
      eauto 12 using ble_trans. }
    assert (L : length (shp tau) <= length s2s) by lia.
    assert (B' : ble (shp tau) (s2s ++ (n :: nil))) by (eapply ble_trans; eassumption). clear -B' L.
    apply ble_sub. revert s2s L B'. induction (shp tau) as [|d t IH]; intros [|e q] L B; simpl in *; try lia; try apply ble_nil.
    apply ble_cons in B. apply ble_cons. destruct B. split; [assumption|]. apply IH; [lia|assumption]. }
  unfold sum_axis0. cbn [shp]. rewrite Sp, removelast_last, last_last. split; [|exact Lup].
  rewrite bget_mk. rewrite firstn_all2 by (rewrite proj_length; lia).
  set (j := proj up idx). assert (Lj : length j = length (shp mu)) by (unfold j; rewrite proj_length; lia).
  assert (G : forall k x, nth_error fns k = Some x -> get p (j ++ (k :: nil)) =
    xmul (bget x idx) (xmul (xpow (bget mu idx) 1) (x_S2 (bget mu idx) (bget tau idx) 0))).
  { intros k fk Ek. assert (Hk : k < 2) by (rewrite <- Hn; apply nth_error_Some; congruence).
    replace (get p (j ++ (k :: nil))) with (bget p (j ++ (k :: nil))).
    2: { unfold bget. rewrite Sp, proj_snoc by congruence. unfold j at 1. rewrite proj_self. fold j. reflexivity. }
    rewrite (bget_map2 _ _ _ _ _ Ep).
    assert (Z : bget mt (j ++ (k :: nil)) = bget mt (j ++ (0 :: nil))).
    { unfold bget. rewrite Sm. rewrite !proj_snoc by congruence. reflexivity. }
    rewrite Z, (bget_map2 _ _ _ _ _ Em).
    rewrite (stack_bget _ _ k j (broadcast_to sf (atleast_1d fk)) Ef).
    2: { apply map_nth_error. now apply map_nth_error. }
    2: { cbn [shp broadcast_to]. lia. }
    rewrite (k_mux_el _ _ _ _ _ Hm) by (unfold n; lia || assumption). rewrite (k_S2_el _ _ _ _ _ _ E2) by (unfold n; lia || assumption).
    assert (Sfk : sub (shp (atleast_1d fk)) sf). { apply Hsub. apply in_map. now apply nth_error_In in Ek. }
    rewrite bget_broadcast_to by assumption. unfold j.
    rewrite (bget_proj (atleast_1d fk)) by (eapply sub_trans; eassumption).
    rewrite !(bget_proj mu) by assumption. rewrite (bget_proj tau) by assumption. rewrite bget_atleast_1d. reflexivity. }
  cbn [seq fold_right]. rewrite (G 0 a eq_refl), (G 1 b eq_refl). reflexivity.
Qed.

(** ** the real numbers *)
Open Scope R_scope.
Lemma xpow_Fin r k : xpow (Fin r) k = Fin (r ^ k).
Proof. induction k as [|k IH]; [reflexivity|]. cbn [xpow]. rewrite IH. reflexivity. Qed.
Lemma neg_div a b : b <> 0 -> xdiv (xopp (Fin a)) (Fin b) = Fin (- a / b).
Proof. intros H. cbn [xopp]. rewrite xdiv_Fin by assumption. reflexivity. Qed.
Section Kernel.
  Context (mu tau : R) (Hm : 0 < mu < 1) (Ht : 0 < tau).
  Lemma x_hlp1_val : x_hlp1 (Fin mu) (Fin tau) = Fin (hlp1 mu tau).
  Proof.
    unfold x_hlp1. rewrite neg_div by lra. cbn [xexp xsub xopp xadd]. rewrite xdiv_Fin by lra.
    assert (P : 0 < mu / (1 + - mu)) by (apply Rdiv_lt_0_compat; lra).
    assert (Q : 0 < tau / mu + - tau).
    { replace (tau / mu + - tau) with (tau * (1 - mu) / mu) by (field; lra). apply Rdiv_lt_0_compat; [|lra]. apply Rmult_lt_0_compat; lra. }
    rewrite xdiv_Fin by lra. cbn [xadd xlog]. destruct (Rlt_dec 0 (mu / (1 + - mu))); [|lra].
    assert (X : forall z, z <> 0 -> xexpi (Fin z) = Fin (Ei z)) by (intros z Hz; unfold xexpi; destruct (Req_EM_T z 0); [contradiction|reflexivity]).
    rewrite X by lra. cbn [xmul xsub xopp xadd]. rewrite X by lra. cbn [xmul xsub xopp xadd]. unfold hlp1. reflexivity.
  Qed.
  Lemma x_inner_val k : (0 < k)%nat -> x_inner (Fin mu) (Fin tau) k = Fin (inner mu tau k).
  Proof.
    intros Hk. unfold x_inner. rewrite xpow_Fin, neg_div by lra. cbn [xexp xexpn]. destruct (Rlt_dec tau 0); [lra|].
    assert (N : INR k <> 0) by (apply not_0_INR; lia). assert (N' : mu ^ k <> 0) by (apply pow_nonzero; lra).
    rewrite !xdiv_Fin by assumption. cbn [xsub xopp xadd xmul]. f_equal. unfold inner. field. auto.
  Qed.
  Lemma inner_sum_app n : x_inner_sum (Fin mu) (Fin tau) n = Fin (inner_sum mu tau (S n)).
  Proof.
    unfold x_inner_sum. replace (n + 1)%nat with (S n) by lia. generalize (S n). clear n. intros n.
    assert (G : forall n s a, (0 < s)%nat -> fold_left (fun acc k => xadd acc (x_inner (Fin mu) (Fin tau) k)) (seq s n) (Fin a)
      = Fin (fold_left (fun acc k => acc + inner mu tau k) (seq s n) a)).
    { clear n. induction n as [|n IH]; intros s a Hs; [reflexivity|]. cbn [seq fold_left]. rewrite x_inner_val by assumption. cbn [xadd]. apply IH. lia. }
    rewrite G by lia. f_equal.
    induction n as [|n IH]; [reflexivity|]. rewrite seq_S, fold_left_app, IH. reflexivity.
  Qed.
  Lemma x_S2_val k : x_S2 (Fin mu) (Fin tau) k = Fin (inner_sum mu tau (S k) + hlp1 mu tau).
  Proof. unfold x_S2. rewrite inner_sum_app, x_hlp1_val. reflexivity. Qed.
  Lemma x_Fint_val cs : exists F, x_Fint (map Fin cs) (Fin mu) (Fin tau) = Fin F /\
    is_RInt (fun u => u * kern mu tau u * poly_at cs u) 0 1 F.
  Proof.
    unfold x_Fint. rewrite map_length.
    assert (G : forall l s, (s + length l = length cs)%nat -> l = skipn s cs -> exists F,
      fold_right (fun k acc => xadd (xmul (nth k (map Fin cs) NaN) (xmul (xpow (Fin mu) (k + 1)) (x_S2 (Fin mu) (Fin tau) k))) acc) (Fin 0) (seq s (length l)) = Fin F /\
      is_RInt (fun u => u ^ (s + 1) * kern mu tau u * poly_at l u) 0 1 F).
    { induction l as [|c l IH]; intros s Hs Hl.
      - exists 0. split; [reflexivity|]. apply (is_ext (fun _ => 0)); [intros; simpl; ring|apply is_zero].
      - cbn [List.length] in Hs. destruct (IH (S s)) as (F & E & I). { lia. }
        { clear -Hl. revert s Hl. induction cs as [|x xs IHc]; intros s Hl; [destruct s; discriminate|]. destruct s as [|s]; simpl in *; [congruence|]. now apply IHc. }
        assert (Hc : nth s (map Fin cs) NaN = Fin c).
        { clear -Hl Hs. revert cs Hs Hl. induction s as [|s IHs]; intros [|x xs] Hs Hl; try discriminate; simpl in *; [congruence|]. apply IHs; [lia|assumption]. }
        cbn [List.length seq fold_right]. rewrite E, Hc, xpow_Fin, x_S2_val. cbn [xmul xadd]. eexists. split; [reflexivity|].
        apply (is_ext (fun u => c * (u ^ (s + 1) * kern mu tau u) + u ^ (S s + 1) * kern mu tau u * poly_at l u)).
        + intros u. cbn [poly_at]. replace (S s + 1)%nat with (S (s + 1)) by lia. simpl. ring.
        + apply is_sum; [|exact I]. eapply is_val; [apply is_scale, (kern_pow mu tau Hm Ht (s + 1))|].
          replace (s + 1)%nat with (S s) by lia. reflexivity. }
    destruct (G cs 0%nat eq_refl eq_refl) as (F & E & I). exists F. split; [exact E|].
    eapply is_ext; [|exact I]. intros u. simpl. ring.
  Qed.
End Kernel.
