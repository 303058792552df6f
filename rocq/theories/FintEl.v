(** The first-order interaction kernels, element by element. *)
From Verif Require Export Shape.
Open Scope nat_scope.

(** scalar formulas (_calc.py:1067-1087, 1110-1114) *)
Definition x_hlp1 (mu tau : xr) : xr :=
  let q := xexp (xdiv (xopp tau) mu) in
  xadd (xsub (xmul q (xlog (xdiv mu (xsub (Fin 1%R) mu)))) (xexpi (xopp tau)))
       (xmul q (xexpi (xsub (xdiv tau mu) tau))).
Definition x_inner (mu tau : xr) (k : nat) : xr :=
  xmul (xdiv (Fin 1%R) (xpow mu k))
       (xsub (xexpn (k + 1) tau) (xdiv (xexp (xdiv (xopp tau) mu)) (Fin (INR k)))).
Definition x_inner_sum (mu tau : xr) (n : nat) : xr :=
  fold_left (fun acc k => xadd acc (x_inner mu tau k)) (seq 1 (n + 1)) (Fin 0%R).
Definition x_S2 (mu tau : xr) (n : nat) : xr := xadd (x_inner_sum mu tau n) (x_hlp1 mu tau).
Definition x_Fint (fs : list xr) (mu tau : xr) : xr :=
  fold_right (fun k acc => xadd (xmul (nth k fs NaN) (xmul (xpow mu (k + 1)) (x_S2 mu tau k))) acc)
             (Fin 0%R) (seq 0 (length fs)).

Lemma k_hlp1_el mu tau a idx : k_hlp1 mu tau = Ok a -> bget a idx = x_hlp1 (bget mu idx) (bget tau idx).
Proof.
  unfold k_hlp1. kernel. unfold nexp, nneg, nlog, nexpi in *.
  repeat (rewrite ?bget_map1; bg). reflexivity.
Qed.
Lemma k_inner_el mu tau k a idx : k_inner mu tau k = Ok a -> bget a idx = x_inner (bget mu idx) (bget tau idx) k.
Proof.
  unfold k_inner. kernel. unfold nexp, nneg, nexpn in *.
  repeat (rewrite ?bget_map1; bg). reflexivity.
Qed.
Lemma k_inner_sum_el mu tau n a idx : k_inner_sum mu tau n = Ok a ->
  bget a idx = x_inner_sum (bget mu idx) (bget tau idx) n.
Proof.
  unfold k_inner_sum, x_inner_sum.
  assert (G : forall l acc x, bget acc idx = x ->
     fold_left (fun acc k => let* a := acc in let* x := k_inner mu tau k in nadd a x) l (Ok acc) = Ok a ->
     bget a idx = fold_left (fun acc k => xadd acc (x_inner (bget mu idx) (bget tau idx) k)) l x).
  { induction l as [|k l IH]; intros acc x Hx H; simpl in H.
    - inversion H; subst. reflexivity.
    - destruct (k_inner mu tau k) as [y|] eqn:Ey; cbn [rbind] in H;
        [|exfalso; clear -H; induction l; simpl in H; [discriminate|auto]].
      destruct (nadd acc y) as [z|] eqn:Ez; cbn [rbind] in H;
        [|exfalso; clear -H; induction l; simpl in H; [discriminate|auto]].
      simpl. eapply IH; [|exact H]. unfold nadd in Ez. rewrite (bget_map2 _ _ _ _ idx Ez), Hx.
      now rewrite (k_inner_el _ _ _ _ idx Ey). }
  intros H. eapply G; [|exact H]. reflexivity.
Qed.

(** ranks *)
Lemma bc_shape_rank s t r : bc_shape s t = Some r -> length r = Nat.max (length s) (length t).
Proof.
  revert t r. induction s as [|d s IH]; intros [|e t] r H; simpl in H; try (inversion H; subst; simpl; lia).
  destruct (bc_dim d e); [|discriminate]. destruct (bc_shape s t) as [q|] eqn:E; [|discriminate].
  inversion H; subst. simpl. rewrite (IH _ _ E). reflexivity.
Qed.
Lemma map2_rank {A B C} (f : A -> B -> C) a b c : map2 f a b = Ok c ->
  length (shp c) = Nat.max (length (shp a)) (length (shp b)).
Proof. intros H. apply shp_map2 in H. now apply bc_shape_rank in H. Qed.

Lemma k_hlp1_rank mu tau a : k_hlp1 mu tau = Ok a -> length (shp a) = Nat.max (length (shp mu)) (length (shp tau)).
Proof.
  unfold k_hlp1. intros H. repeat rb H. unfold nadd, nsub, nmul, ndiv in *.
  repeat match goal with E : map2 _ _ _ = Ok _ |- _ => apply map2_rank in E; simpl in E end. lia.
Qed.
Lemma k_inner_rank mu tau k a : k_inner mu tau k = Ok a -> length (shp a) = Nat.max (length (shp mu)) (length (shp tau)).
Proof.
  unfold k_inner. intros H. repeat rb H. unfold nadd, nsub, nmul, ndiv in *.
  repeat match goal with E : map2 _ _ _ = Ok _ |- _ => apply map2_rank in E; simpl in E end. lia.
Qed.
Lemma k_inner_sum_rank mu tau n a : k_inner_sum mu tau n = Ok a ->
  length (shp a) = Nat.max (length (shp mu)) (length (shp tau)).
Proof.
  unfold k_inner_sum.
  assert (G : forall l acc, length (shp acc) <= Nat.max (length (shp mu)) (length (shp tau)) ->
     fold_left (fun acc k => let* a := acc in let* x := k_inner mu tau k in nadd a x) l (Ok acc) = Ok a ->
     length (shp a) <= Nat.max (length (shp mu)) (length (shp tau)) /\
     (l <> [] \/ length (shp acc) = Nat.max (length (shp mu)) (length (shp tau)) ->
      length (shp a) = Nat.max (length (shp mu)) (length (shp tau)))).
  { induction l as [|k l IH]; intros acc Hx H; simpl in H.
    - inversion H; subst. split; [assumption|]. intros [X|X]; [congruence|assumption].
    - destruct (k_inner mu tau k) as [y|] eqn:Ey; cbn [rbind] in H;
        [|exfalso; clear -H; induction l; simpl in H; [discriminate|auto]].
      destruct (nadd acc y) as [z|] eqn:Ez; cbn [rbind] in H;
        [|exfalso; clear -H; induction l; simpl in H; [discriminate|auto]].
      apply k_inner_rank in Ey. unfold nadd in Ez. apply map2_rank in Ez.
      destruct (IH z) as [I1 I2]; [lia|assumption|]. split; [assumption|]. intros _. apply I2. right. lia. }
  intros H. destruct (G _ (num 0) (Nat.le_0_l _) H) as [_ X]. apply X. left. rewrite Nat.add_comm. discriminate.
Qed.

(** indexing a stack *)
Lemma proj_snoc s n j k : length j = length s -> proj (s ++ [n]) (j ++ [k]) = proj s j ++ [if n =? 1 then 0 else k].
Proof.
  revert j. induction s as [|d s IH]; intros [|i j] H; simpl in *; try discriminate; [reflexivity|].
  f_equal. apply IH. lia.
Qed.
Lemma stack_bget (l : list (nd xr)) s k j a : stack l = Ok s -> nth_error l k = Some a ->
  length j = length (shp a) -> bget s (j ++ [k]) = bget a j.
Proof.
  intros H Hk Hj. destruct (stack_spec _ _ H) as (sh & Hs & Hall & Hg).
  assert (Ha : shp a = sh). { rewrite Forall_forall in Hall. apply Hall. now apply nth_error_In in Hk. }
  assert (Hlt : k < length l) by (apply nth_error_Some; congruence).
  unfold bget. rewrite Hs, proj_snoc by congruence.
  replace (if length l =? 1 then 0 else k) with k by (destruct (Nat.eqb_spec (length l) 1); lia).
  rewrite <- Ha. apply Hg; [assumption|]. rewrite proj_length. congruence.
Qed.
Lemma stack_rank (l : list (nd xr)) s a : stack l = Ok s -> In a l ->
  shp s = shp a ++ [length l].
Proof.
  intros H Ha. destruct (stack_spec _ _ H) as (sh & Hs & Hall & _). rewrite Forall_forall in Hall.
  now rewrite (Hall a Ha).
Qed.
Lemma stack_nil {A} (l : list (nd A)) s : stack l = Ok s -> l <> [].
Proof. destruct l; [discriminate|congruence]. Qed.

Lemma rmap_nth {A B} (f : A -> res B) l l' k x : rmap f l = Ok l' -> nth_error l k = Some x ->
  exists y, nth_error l' k = Some y /\ f x = Ok y.
Proof.
  intros H. apply rmap_Forall2 in H. revert k. induction H; intros [|k] Hk; simpl in *; try discriminate; eauto.
  inversion Hk; subst. eauto.
Qed.
Lemma rmap_length {A B} (f : A -> res B) l l' : rmap f l = Ok l' -> length l' = length l.
Proof. intros H. apply rmap_Forall2 in H. symmetry. eapply F2_length; eassumption. Qed.
Lemma nth_seq0 n k : k < n -> nth_error (seq 0 n) k = Some k.
Proof.
  intros H. rewrite (nth_error_nth' _ 0) by (rewrite seq_length; lia). now rewrite seq_nth by lia.
Qed.

Lemma k_mux_el n mu a k j : k_mux n mu = Ok a -> k < n -> length j = length (shp mu) ->
  bget a (j ++ [k]) = xpow (bget mu j) (k + 1).
Proof.
  unfold k_mux. intros H Hk Hj.
  assert (E : nth_error (map (fun n => npow mu (n + 1)) (seq 0 n)) k = Some (npow mu (k + 1))).
  { apply (map_nth_error (fun n => npow mu (n + 1))). now apply nth_seq0. }
  rewrite (stack_bget _ _ _ _ _ H E) by assumption. reflexivity.
Qed.
Lemma k_mux_shp n mu a : k_mux n mu = Ok a -> n <> 0 /\ shp a = shp mu ++ [n].
Proof.
  unfold k_mux. intros H. assert (Hn : n <> 0) by (intros ->; discriminate). split; [assumption|].
  assert (E : nth_error (map (fun n => npow mu (n + 1)) (seq 0 n)) 0 = Some (npow mu (0 + 1))).
  { apply (map_nth_error (fun n => npow mu (n + 1))). apply nth_seq0. lia. }
  apply nth_error_In in E. rewrite (stack_rank _ _ _ H E). now rewrite map_length, seq_length.
Qed.

Lemma k_S2_el n mu tau a k j : k_S2 n mu tau = Ok a -> k < n -> length (shp tau) <= length (shp mu) ->
  length j = length (shp mu) ->
  bget a (j ++ [k]) = x_S2 (bget mu j) (bget tau j) k.
Proof.
  unfold k_S2. intros H Hk Ht Hj.
  destruct (k_hlp1 mu tau) as [h|] eqn:Eh; [cbn [rbind] in H|discriminate].
  destruct (rmap _ _) as [rows|] eqn:Er; [cbn [rbind] in H|discriminate].
  destruct (stack rows) as [s|] eqn:Es; [cbn [rbind] in H|discriminate].
  destruct (rmap_nth _ _ _ k k Er) as (row & Hrow & Hr); [now apply nth_seq0|].
  pose proof (k_inner_sum_rank _ _ _ _ Hr) as Rr. pose proof (k_hlp1_rank _ _ _ Eh) as Rh.
  unfold nadd in H. rewrite (bget_map2 _ _ _ _ _ H).
  rewrite (stack_bget _ _ _ _ _ Es Hrow) by lia.
  rewrite (k_inner_sum_el _ _ _ _ j Hr).
  rewrite bget_app by lia. rewrite (k_hlp1_el _ _ _ j Eh). reflexivity.
Qed.
Lemma k_S2_rank n mu tau a : k_S2 n mu tau = Ok a -> length (shp tau) <= length (shp mu) ->
  n <> 0 /\ exists s, shp a = s ++ [n] /\ length s = length (shp mu).
Proof.
  unfold k_S2. intros H Ht.
  destruct (k_hlp1 mu tau) as [h|] eqn:Eh; [cbn [rbind] in H|discriminate].
  destruct (rmap _ _) as [rows|] eqn:Er; [cbn [rbind] in H|discriminate].
  destruct (stack rows) as [s|] eqn:Es; [cbn [rbind] in H|discriminate].
  pose proof (rmap_length _ _ _ Er) as Lr. rewrite seq_length in Lr.
  assert (Hn : n <> 0). { intros ->. destruct rows; [discriminate|]. discriminate. }
  split; [assumption|].
  destruct (rmap_nth _ _ _ 0 0 Er) as (row & Hrow & Hr); [apply nth_seq0; lia|].
  pose proof (k_inner_sum_rank _ _ _ _ Hr) as Rr. pose proof (k_hlp1_rank _ _ _ Eh) as Rh.
  apply nth_error_In in Hrow. pose proof (stack_rank _ _ _ Es Hrow) as Ss. rewrite Lr in Ss.
  unfold nadd in H. apply shp_map2 in H. rewrite Ss in H. rewrite Rr in Rh || idtac.
  assert (L : length (shp row) = length (shp mu)) by lia. assert (L' : length (shp h) = length (shp row)) by lia.
  clear -H L L'. revert H L'. generalize (shp h). rewrite <- L. generalize (shp a). clear L.
  induction (shp row) as [|d r IH]; intros t [|e q] H L'; simpl in *; try discriminate.
  - exists []. inversion H; auto.
  - destruct (bc_dim d e) as [x|]; [|discriminate]. destruct (bc_shape (r ++ [n]) q) as [z|] eqn:E; [|discriminate].
    inversion H; subst. destruct (IH z q E) as (s' & -> & Ls); [lia|]. exists (x :: s'). simpl. auto.
Qed.

(** two arrays with the same rank and first (numpy) axis n *)
Lemma bc_snoc s t n m r : length s = length t -> bc_shape (s ++ [n]) (t ++ [m]) = Some r ->
  exists u x, r = u ++ [x] /\ bc_shape s t = Some u /\ bc_dim n m = Some x.
Proof.
  revert t r. induction s as [|d s IH]; intros [|e t] r L H; simpl in *; try discriminate.
  - destruct (bc_dim n m) as [x|]; [|discriminate]. inversion H; subst. exists [], x. auto.
  - destruct (bc_dim d e) as [y|]; [|discriminate].
    destruct (bc_shape (s ++ [n]) (t ++ [m])) as [z|] eqn:E; [|discriminate]. inversion H; subst.
    destruct (IH _ _ (eq_add_S _ _ L) E) as (u & x & -> & Hu & Hx). exists (y :: u), x. rewrite Hu. auto.
Qed.

Lemma bc_dim_same n x : bc_dim n n = Some x -> x = n.
Proof. unfold bc_dim. rewrite Nat.eqb_refl. congruence. Qed.

Definition bc_rank (l : list (nd xr)) : nat := fold_right (fun a n => Nat.max (length (shp a)) n) 0 l.
Lemma bc_shapes_rank_acc l : forall a r,
  fold_left (fun acc s => match acc with Some a => bc_shape a s | None => None end) (map shp l) (Some a) = Some r ->
  length r = Nat.max (length a) (bc_rank l).
Proof.
  induction l as [|b l IH]; intros a r H; simpl in H.
  - inversion H; subst. simpl. lia.
  - destruct (bc_shape a (shp b)) as [c|] eqn:E.
    + rewrite (IH c r H). apply bc_shape_rank in E. simpl. lia.
    + exfalso. clear -H. induction l as [|s l IH]; simpl in H; [discriminate|auto].
Qed.
Lemma bc_shapes_rank l r : bc_shapes (map shp l) = Some r -> length r = bc_rank l.
Proof. intros H. apply bc_shapes_rank_acc in H. exact H. Qed.

Lemma k_Fint_el n fns mux mu tau a idx : k_Fint n fns mux mu tau = Ok a -> k_mux n mu = Ok mux ->
  length fns = n -> length (shp tau) <= length (shp mu) -> bc_rank (map atleast_1d fns) = length (shp mu) ->
  bget a idx = x_Fint (map (fun f => bget f idx) fns) (bget mu idx) (bget tau idx) /\
  length (shp a) = length (shp mu).
Proof.
  unfold k_Fint. intros H Hm Hn Ht Hr.
  destruct (broadcast_arrays _) as [fn|] eqn:Eb; [cbn [rbind] in H|discriminate].
  destruct (k_S2 n mu tau) as [s2|] eqn:E2; [cbn [rbind] in H|discriminate].
  destruct (nmul mux s2) as [mt|] eqn:Em; [cbn [rbind] in H|discriminate].
  destruct (stack fn) as [f|] eqn:Ef; [cbn [rbind] in H|discriminate].
  destruct (nmul f mt) as [p|] eqn:Ep; [cbn [rbind] in H|discriminate]. inversion H; subst a; clear H.
  destruct (broadcast_arrays_spec _ _ Eb) as (sf & Esf & -> & Hsub).
  pose proof (bc_shapes_rank _ _ Esf) as Lsf. rewrite Hr in Lsf.
  destruct (k_mux_shp _ _ _ Hm) as [Hn0 Smux]. destruct (k_S2_rank _ _ _ _ E2 Ht) as (_ & s2s & Ss2 & Ls2).
  assert (Lf : length (map (broadcast_to sf) (map atleast_1d fns)) = n) by (rewrite !map_length; assumption).
  assert (Sf : shp f = sf ++ [n]).
  { destruct fns as [|f0 fns]; [simpl in Hn; lia|].
    rewrite (stack_rank _ _ (broadcast_to sf (atleast_1d f0)) Ef) by (left; reflexivity). rewrite Lf. reflexivity. }
  unfold nmul in Em, Ep.
  pose proof (shp_map2 _ _ _ _ Em) as Sm. rewrite Smux, Ss2 in Sm.
  apply bc_snoc in Sm; [|congruence]. destruct Sm as (um & xm & Sm & Um & Xm). apply bc_dim_same in Xm. subst xm.
  pose proof (shp_map2 _ _ _ _ Ep) as Sp. rewrite Sf, Sm in Sp.
  assert (Lum : length um = length (shp mu)) by (rewrite (bc_shape_rank _ _ _ Um); lia).
  apply bc_snoc in Sp; [|congruence]. destruct Sp as (up & xp & Sp & Up & Xp). apply bc_dim_same in Xp. subst xp.
  assert (Lup : length up = length (shp mu)) by (rewrite (bc_shape_rank _ _ _ Up); lia).
  assert (Bmu : sub (shp mu) up).
  { eapply sub_trans; [eapply sub_l; exact Um|]. eapply sub_r; exact Up. }
  assert (Bf : sub sf up) by (eapply sub_l; exact Up).
  assert (Btau : sub (shp tau) up).
  { eapply sub_trans; [|eapply sub_r; exact Up]. eapply sub_trans; [|eapply sub_r; exact Um].
    (* tau within the S2 shape *)
    clear -E2 Ss2 Ht Ls2. unfold k_S2 in E2.
    destruct (k_hlp1 mu tau) as [h|] eqn:Eh; [cbn [rbind] in E2|discriminate].
    destruct (rmap _ _) as [rows|] eqn:Er; [cbn [rbind] in E2|discriminate].
    destruct (stack rows) as [s|] eqn:Es; [cbn [rbind] in E2|discriminate].
    unfold nadd in E2. apply map2_ble in E2. destruct E2 as [_ B]. rewrite Ss2 in B.
    assert (ble (shp tau) (shp h)).
    { clear -Eh. unfold k_hlp1 in Eh. repeat rb Eh. unfold nadd, nsub, nmul, ndiv in *.
      repeat match goal with E : map2 _ _ _ = Ok _ |- _ => apply map2_ble in E; simpl in E; destruct E as [? ?] end.
      eauto 12 using ble_trans. }
    assert (L : length (shp tau) <= length s2s) by lia.
    assert (B' : ble (shp tau) (s2s ++ [n])) by (eapply ble_trans; eassumption). clear -B' L.
    apply ble_sub. revert s2s L B'. induction (shp tau) as [|d t IH]; intros [|e q] L B; simpl in *; try lia; try apply ble_nil.
    apply ble_cons in B. apply ble_cons. destruct B. split; [assumption|]. apply IH; [lia|assumption]. }
  unfold sum_axis0. cbn [shp]. rewrite Sp, removelast_last, last_last. split; [|exact Lup].
  rewrite bget_mk. rewrite firstn_all2 by (rewrite proj_length; lia).
  unfold x_Fint. rewrite map_length, Hn.
  set (j := proj up idx). assert (Lj : length j = length (shp mu)) by (unfold j; rewrite proj_length; lia).
  assert (G : forall k, k < n -> get p (j ++ [k]) =
    xmul (nth k (map (fun f => bget f idx) fns) NaN) (xmul (xpow (bget mu idx) (k + 1)) (x_S2 (bget mu idx) (bget tau idx) k))).
  { intros k Hk. replace (get p (j ++ [k])) with (bget p (j ++ [k])).
    2: { unfold bget. rewrite Sp, proj_snoc by congruence. unfold j at 1. rewrite proj_self. fold j.
         destruct (Nat.eqb_spec n 1); [|reflexivity]. replace k with 0 by lia. reflexivity. }
    rewrite (bget_map2 _ _ _ _ _ Ep), (bget_map2 _ _ _ _ _ Em).
    destruct (nth_error fns k) as [fk|] eqn:Ek; [|apply nth_error_None in Ek; lia].
    rewrite (stack_bget _ _ k j (broadcast_to sf (atleast_1d fk)) Ef).
    2: { apply map_nth_error. now apply map_nth_error. }
    2: { cbn [shp broadcast_to]. lia. }
    rewrite (k_mux_el _ _ _ _ _ Hm) by assumption. rewrite (k_S2_el _ _ _ _ _ _ E2) by assumption.
    assert (Sfk : sub (shp (atleast_1d fk)) sf). { apply Hsub. apply in_map. now apply nth_error_In in Ek. }
    rewrite bget_broadcast_to by assumption. unfold j.
    rewrite (bget_proj (atleast_1d fk)) by (eapply sub_trans; eassumption).
    rewrite !(bget_proj mu) by assumption. rewrite (bget_proj tau) by assumption. rewrite bget_atleast_1d.
    rewrite (nth_error_nth _ k NaN (map_nth_error (fun f => bget f idx) k fns Ek)). reflexivity. }
  assert (Gs : forall l, (forall k, In k l -> k < n) ->
     fold_right (fun k acc => xadd (get p (j ++ [k])) acc) (Fin 0%R) l =
     fold_right (fun k acc => xadd (xmul (nth k (map (fun f => bget f idx) fns) NaN)
        (xmul (xpow (bget mu idx) (k + 1)) (x_S2 (bget mu idx) (bget tau idx) k))) acc) (Fin 0%R) l).
  { induction l as [|k l IH]; intros Hl; [reflexivity|]. cbn [fold_right].
    rewrite IH by (intros; apply Hl; now right). rewrite G by (apply Hl; now left). reflexivity. }
  apply Gs. intros k Hk. apply in_seq in Hk. lia.
Qed.
