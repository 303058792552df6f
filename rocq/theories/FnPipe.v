(** The steps of the interaction-coefficient pipeline (src/rt1_model/_calc.py:875-1065), algebraically. *)
From Verif Require Export FnAlg.
Open Scope string_scope.
Open Scope nat_scope.
Open Scope list_scope.

(** ** (1 - x^2)^(i/2) *)
Definition even_cp (i : nat) (m : mono) : Prop := msp m = 0 /\ mst m = 0 /\ mct m = 0 /\ Nat.even (mcp m) = true /\ mcp m <= i.
Definition even_ct (i : nat) (m : mono) : Prop := msp m = 0 /\ mcp m = 0 /\ mst m = 0 /\ Nat.even (mct m) = true /\ mct m <= i.
Lemma even_add a b : Nat.even a = true -> Nat.even b = true -> Nat.even (a + b) = true.
Proof. intros H1 H2. now rewrite Nat.even_add, H1, H2. Qed.
Lemma ppow_cp k : Forall (even_cp (2 * k)) (ppow [mk_mono (ENum 1) 0 0 0 0; scale_mono (ENum (-1)) (mmul atom_cp atom_cp)] k).
Proof.
  induction k as [|k IH]; [repeat constructor|]. cbn [ppow]. unfold pmul. rewrite Forall_flat_map.
  repeat constructor; rewrite Forall_map; eapply Forall_impl; try exact IH; intros m (A & B & C & E & L);
    unfold even_cp; cbn [mmul scale_mono atom_cp msp mcp mst mct]; repeat split; try lia; now apply even_add.
Qed.
Lemma ppow_ct k : Forall (even_ct (2 * k)) (ppow [mk_mono (ENum 1) 0 0 0 0; scale_mono (ENum (-1)) (mmul atom_ct atom_ct)] k).
Proof.
  induction k as [|k IH]; [repeat constructor|]. cbn [ppow]. unfold pmul. rewrite Forall_flat_map.
  repeat constructor; rewrite Forall_map; eapply Forall_impl; try exact IH; intros m (A & B & C & E & L);
    unfold even_ct; cbn [mmul scale_mono atom_ct msp mcp mst mct]; repeat split; try lia; now apply even_add.
Qed.
Lemma div2_le i : 2 * Nat.div2 i <= i. Proof. pose proof (Nat.div2_odd i). destruct (Nat.odd i); simpl in *; lia. Qed.
Lemma div2_even i : Nat.even i = true -> 2 * Nat.div2 i = i.
Proof. intros H. apply Nat.even_spec in H. destruct H as [k ->]. now rewrite Nat.div2_double. Qed.
Lemma oms_cp i : Forall (even_cp i) (one_minus_sq atom_cp i).
Proof.
  eapply Forall_impl; [|apply ppow_cp]. intros m (A & B & C & E & L). pose proof (div2_le i). repeat split; auto; lia.
Qed.
Lemma oms_ct i : Forall (even_ct i) (one_minus_sq atom_ct i).
Proof.
  eapply Forall_impl; [|apply ppow_ct]. intros m (A & B & C & E & L). pose proof (div2_le i). repeat split; auto; lia.
Qed.
Lemma oms_cp_val f sp cp st ct i : pval f sp cp st ct (one_minus_sq atom_cp i) = ((1 - cp * cp) ^ Nat.div2 i)%R.
Proof.
  unfold one_minus_sq. rewrite pval_ppow. f_equal. simpl. unfold mval. cbn [scale_mono mmul atom_cp mc msp mcp mst mct].
  rewrite !ev_emul. cbn [evalR]. rewrite Q2R_1', Q2R_lit. simpl. lra.
Qed.
Lemma oms_ct_val f sp cp st ct i : pval f sp cp st ct (one_minus_sq atom_ct i) = ((1 - ct * ct) ^ Nat.div2 i)%R.
Proof.
  unfold one_minus_sq. rewrite pval_ppow. f_equal. simpl. unfold mval. cbn [scale_mono mmul atom_ct mc msp mcp mst mct].
  rewrite !ev_emul. cbn [evalR]. rewrite Q2R_1', Q2R_lit. simpl. lra.
Qed.
Section OmsCoef.
  Context (P : expr -> Prop) (Pnum : forall q, P (ENum q)) (Pmul : forall a b, P a -> P b -> P (emul a b)).
  Lemma cf_oms atom i : P (mc atom) -> cf P (one_minus_sq atom i).
  Proof.
    intros H. apply cf_ppow; auto. constructor; [apply Pnum|constructor; [|constructor]].
    cbn [scale_mono mmul mc]. auto.
  Qed.
  Lemma cf_repl_sin_phi M m : P (mc m) -> cf P (repl_sin_phi M m).
  Proof.
    intros H. unfold repl_sin_phi. destruct (msp m =? 0); [constructor; [exact H|constructor]|].
    destruct (M <? msp m); [destruct (M =? 0); [constructor; [exact H|constructor]|constructor]|].
    destruct (Nat.odd (msp m)); [constructor|]. apply cf_pmul; auto; [constructor; [exact H|constructor]|].
    apply cf_oms. apply Pnum.
  Qed.
  Lemma cf_repl_cos_phi M m : P (mc m) -> cf P (repl_cos_phi M m).
  Proof.
    intros H. unfold repl_cos_phi. destruct (mcp m =? 0); [constructor; [exact H|constructor]|].
    destruct (M <? mcp m); [destruct (M =? 0); [constructor; [exact H|constructor]|constructor]|].
    destruct (Qeq_bool _ _); [constructor|]. constructor; [|constructor]. cbn [mc]. auto.
  Qed.
  Lemma cf_repl_sin_theta M m : P (mc m) -> cf P (repl_sin_theta M m).
  Proof.
    intros H. unfold repl_sin_theta. destruct (_ && _); [|constructor; [exact H|constructor]].
    apply cf_pmul; auto; [constructor; [exact H|constructor]|]. apply cf_oms. apply Pnum.
  Qed.
  Lemma cf_integrate M p : cf P p -> cf P (integrate_0_2pi_phis M p).
  Proof.
    intros H. unfold integrate_0_2pi_phis. apply cf_flat_map; [apply cf_repl_cos_phi|]. apply cf_flat_map; [apply cf_repl_sin_phi|assumption].
  Qed.
End OmsCoef.

(** ** sin(phi_s) *)
Definition no_sp (n : nat) (st ct : nat) (m : mono) : Prop :=
  msp m = 0 /\ Nat.even (mcp m) = Nat.even n /\ mcp m <= n /\ mst m = st /\ mct m = ct.
Lemma repl_sin_phi_shape M m : 0 < M -> msp m + mcp m <= M ->
  Forall (no_sp (msp m + mcp m) (mst m) (mct m)) (repl_sin_phi M m).
Proof.
  intros HM H. unfold repl_sin_phi. destruct (Nat.eqb_spec (msp m) 0) as [E|E].
  - repeat constructor; cbn [msp mcp mst mct]; rewrite E; simpl; auto.
  - destruct (Nat.ltb_spec M (msp m)); [lia|]. destruct (Nat.odd (msp m)) eqn:O; [constructor|].
    assert (Ev : Nat.even (msp m) = true) by (rewrite <- Nat.negb_odd, O; reflexivity).
    unfold pmul. cbn [flat_map]. rewrite app_nil_r. rewrite Forall_map. eapply Forall_impl; [|apply oms_cp].
    intros k (A & B & C & E' & L). unfold no_sp. cbn [mmul msp mcp mst mct]. rewrite A, B, C.
    repeat split; try lia. rewrite !Nat.even_add, E', Ev. destruct (Nat.even (mcp m)); reflexivity.
Qed.
Lemma mval_single f sp cp st ct m : pval f sp cp st ct [m] = mval f sp cp st ct m.
Proof. simpl. ring. Qed.
Lemma even_pow_sq (sp q : R) i : Nat.even i = true -> (sp * sp = q)%R -> (sp ^ i = q ^ Nat.div2 i)%R.
Proof.
  intros H E. rewrite <- (div2_even i H) at 1. rewrite pow_mult. f_equal. simpl. lra.
Qed.
Lemma repl_sin_phi_val f sp cp st ct M m : 0 < M -> msp m <= M -> Nat.even (msp m) = true -> (sp * sp = 1 - cp * cp)%R ->
  pval f sp cp st ct (repl_sin_phi M m) = mval f sp cp st ct m.
Proof.
  intros HM H Ev S. unfold repl_sin_phi. destruct (Nat.eqb_spec (msp m) 0) as [E|E].
  - rewrite mval_single. unfold mval. cbn [mc msp mcp mst mct]. rewrite E. simpl. ring.
  - destruct (Nat.ltb_spec M (msp m)); [lia|]. rewrite <- Nat.negb_even, Ev. cbn [negb].
    rewrite pval_pmul, mval_single, oms_cp_val. unfold mval. cbn [mc msp mcp mst mct].
    rewrite (even_pow_sq sp _ _ Ev S). simpl. ring.
Qed.
Lemma repl_sin_phi_odd M m : 0 < M -> msp m <= M -> Nat.even (msp m) = false -> repl_sin_phi M m = [].
Proof.
  intros HM H Ev. unfold repl_sin_phi. destruct (Nat.eqb_spec (msp m) 0) as [E|E]; [rewrite E in Ev; discriminate|].
  destruct (Nat.ltb_spec M (msp m)); [lia|]. rewrite <- Nat.negb_even, Ev. reflexivity.
Qed.

(** ** cos(phi_s) *)
Lemma repl_cos_phi_val f sp cp st ct M m : 0 < M -> msp m = 0 -> mcp m <= M ->
  pval f sp cp st ct (repl_cos_phi M m) = (evalR f (mc m) * Q2R (cosintegral (mcp m)) * st ^ mst m * ct ^ mct m)%R.
Proof.
  intros HM Hs H. unfold repl_cos_phi. destruct (Nat.eqb_spec (mcp m) 0) as [E|E].
  - rewrite mval_single. unfold mval. rewrite Hs, E. simpl. change (cosintegral 0) with (1 # 1)%Q. rewrite Q2R_1'. ring.
  - destruct (Nat.ltb_spec M (mcp m)); [lia|]. destruct (Qeq_bool _ _) eqn:Q0.
    + apply Qeq_bool_R in Q0. rewrite Q0, Q2R_0'. simpl. ring.
    + rewrite mval_single. unfold mval. cbn [mc msp mcp mst mct]. rewrite ev_emul, Hs. cbn [evalR]. simpl. ring.
Qed.
Lemma cosintegral_odd i : Nat.even i = false -> cosintegral i = 0%Q.
Proof. intros H. unfold cosintegral. now rewrite H. Qed.
(** after the azimuth integration *)
Definition no_phi (d : nat) (m : mono) : Prop := msp m = 0 /\ mcp m = 0 /\ Nat.even (mst m) = true /\ mst m + mct m <= d.
Lemma integrate_shape M d p : 0 < M -> d <= M -> D 0 d p -> Forall (no_phi d) (integrate_0_2pi_phis M p).
Proof.
  intros HM Hd Hp. unfold integrate_0_2pi_phis. rewrite Forall_flat_map, Forall_flat_map.
  eapply Forall_impl; [|exact Hp]. intros m [A B]. assert (S : mst m = msp m + mcp m) by lia.
  pose proof (repl_sin_phi_shape M m HM ltac:(lia)) as H. eapply Forall_impl; [|exact H].
  intros k (K1 & K2 & K3 & K4 & K5). unfold repl_cos_phi.
  destruct (Nat.eqb_spec (mcp k) 0) as [E|E].
  - constructor; [|constructor]. unfold no_phi. rewrite E in K2. rewrite K4, K5, S, <- K2. repeat split; auto; lia.
  - destruct (Nat.ltb_spec M (mcp k)); [lia|]. destruct (Nat.even (mcp k)) eqn:Ev.
    + destruct (Qeq_bool _ _); [constructor|]. constructor; [|constructor]. unfold no_phi. cbn [msp mcp mst mct].
      rewrite K4, K5, S, <- K2. repeat split; auto; lia.
    + rewrite cosintegral_odd by assumption. constructor.
Qed.

(** ** sin(theta_s) *)
Definition only_ct (d : nat) (m : mono) : Prop := msp m = 0 /\ mcp m = 0 /\ mst m = 0 /\ mct m <= d.
Lemma repl_theta_shape M d p : d < M - 1 -> Forall (no_phi d) p -> Forall (only_ct d) (flat_map (repl_sin_theta M) p).
Proof.
  intros Hd Hp. rewrite Forall_flat_map. eapply Forall_impl; [|exact Hp]. intros m (A & B & C & L).
  unfold repl_sin_theta. destruct (Nat.ltb_spec 0 (mst m)) as [P|P]; cbn [andb].
  - rewrite C. destruct (Nat.ltb_spec (mst m) (M - 1)); [|lia]. cbn [andb]. unfold pmul. cbn [flat_map]. rewrite app_nil_r, Forall_map.
    eapply Forall_impl; [|apply oms_ct]. intros k (K1 & K2 & K3 & K4 & K5). unfold only_ct. cbn [mmul msp mcp mst mct].
    rewrite K1, K2, K3. repeat split; lia.
  - constructor; [|constructor]. unfold only_ct. repeat split; auto; lia.
Qed.
Lemma repl_theta_val f sp cp st ct M d p : d < M - 1 -> Forall (no_phi d) p -> (st * st = 1 - ct * ct)%R ->
  pval f sp cp st ct (flat_map (repl_sin_theta M) p) = pval f sp cp st ct p.
Proof.
  intros Hd Hp Hs. rewrite pval_flat_map. induction Hp as [|m p (A & B & C & L) Hp IH]; simpl; [reflexivity|]. rewrite IH. f_equal.
  unfold repl_sin_theta. destruct (Nat.ltb_spec 0 (mst m)) as [P|P]; cbn [andb]; [|apply mval_single].
  rewrite C. destruct (Nat.ltb_spec (mst m) (M - 1)); [|lia]. cbn [andb].
  rewrite pval_pmul, mval_single, oms_ct_val. unfold mval. cbn [mc msp mcp mst mct].
  rewrite (even_pow_sq st _ _ C Hs). simpl. ring.
Qed.

(** ** extraction of the coefficients of cos(theta_s)^n *)
Fixpoint poly_at (l : list R) (c : R) : R := match l with [] => 0%R | a :: l' => (a + c * poly_at l' c)%R end.
Definition csum (f : string -> R) (n : nat) (p : poly) : R :=
  fold_right (fun m acc => ((if mct m =? n then evalR f (mc m) else 0) + acc)%R) 0%R p.
Lemma ev_mono_expr f m : msp m = 0 -> mcp m = 0 -> mst m = 0 -> mct m = 0 -> evalR f (mono_expr m) = evalR f (mc m).
Proof. intros A B C E. unfold mono_expr. rewrite !ev_emul, !ev_epow, A, B, C, E. simpl. ring. Qed.
Definition sel (f : string -> R) (b : nat -> bool) (p : poly) : R :=
  fold_right (fun m acc => ((if b (mct m) then evalR f (mc m) else 0) + acc)%R) 0%R p.
Lemma ev_sel f d b p : Forall (only_ct d) p ->
  evalR f (poly_expr (map drop_ct (filter (fun m => b (mct m)) p))) = sel f b p.
Proof.
  intros H. unfold poly_expr. rewrite ev_esum, map_map, map_map. induction H as [|m p (A & B & C & L) H IH]; simpl; [reflexivity|].
  destruct (b (mct m)); cbn [map fold_right]; rewrite IH; [|ring]. f_equal.
  apply (ev_mono_expr f (drop_ct m)); auto.
Qed.
Lemma ev_sel0 f d p : Forall (only_ct d) p -> evalR f (poly_expr (repl0 p)) = csum f 0 p.
Proof.
  intros H. unfold poly_expr, repl0. rewrite ev_esum, map_map. induction H as [|m p (A & B & C & L) H IH]; simpl; [reflexivity|].
  destruct (Nat.eqb_spec (mct m) 0); cbn [map fold_right]; rewrite IH; [|unfold csum; simpl; ring]. f_equal. now apply ev_mono_expr.
Qed.
Lemma sel_split f d N p : Forall (only_ct d) p -> d <= N ->
  sel f (fun k => (k <=? 1) || (N <? k)) p = (csum f 0 p + csum f 1 p)%R.
Proof.
  intros H HN. induction H as [|m p (A & B & C & L) H IH]; simpl; [ring|]. unfold csum in *. simpl. rewrite IH.
  destruct (Nat.ltb_spec N (mct m)); [lia|]. rewrite orb_false_r.
  destruct (mct m) as [|[|k]]; simpl; ring.
Qed.
Lemma sel_n f n p : n <> 0 -> sel f (fun k => (k =? 0) || (k =? n)) p = (csum f 0 p + csum f n p)%R.
Proof.
  intros Hn. induction p as [|m p IH]; simpl; [ring|]. unfold csum in *. simpl. rewrite IH.
  destruct (Nat.eqb_spec (mct m) 0) as [E|E]; destruct (Nat.eqb_spec (mct m) n) as [E'|E']; simpl; try ring. congruence.
Qed.
Lemma poly_at_csum_cons f m p c N : mct m < N ->
  poly_at (map (fun n => csum f n (m :: p)) (seq 0 N)) c = (evalR f (mc m) * c ^ mct m + poly_at (map (fun n => csum f n p) (seq 0 N)) c)%R.
Proof.
  intros H.
  assert (G : forall k s, s <= mct m < s + k -> poly_at (map (fun n => csum f n (m :: p)) (seq s k)) c
     = (evalR f (mc m) * c ^ (mct m - s) + poly_at (map (fun n => csum f n p) (seq s k)) c)%R).
  { assert (Z : forall k s, mct m < s -> poly_at (map (fun n => csum f n (m :: p)) (seq s k)) c = poly_at (map (fun n => csum f n p) (seq s k)) c).
    { induction k as [|k IH]; intros s Hs; cbn [seq map poly_at]; [reflexivity|]. rewrite IH by lia. f_equal. unfold csum. simpl.
      destruct (Nat.eqb_spec (mct m) s); [lia|ring]. }
    induction k as [|k IH]; intros s Hs; [lia|]. cbn [seq map poly_at]. destruct (Nat.eq_dec (mct m) s) as [E|E].
    - rewrite Z by lia. replace (csum f s (m :: p)) with (evalR f (mc m) + csum f s p)%R.
      + rewrite E, Nat.sub_diag. simpl. ring.
      + unfold csum. simpl. destruct (Nat.eqb_spec (mct m) s); [reflexivity|contradiction].
    - rewrite IH by lia. replace (mct m - s) with (S (mct m - S s)) by lia.
      replace (csum f s (m :: p)) with (csum f s p) by (unfold csum; simpl; destruct (Nat.eqb_spec (mct m) s); [contradiction|ring]).
      simpl. ring. }
  rewrite (G N 0) by lia. now rewrite Nat.sub_0_r.
Qed.
Lemma poly_at_csum f sp cp st c d N p : Forall (only_ct d) p -> d < N ->
  poly_at (map (fun n => csum f n p) (seq 0 N)) c = pval f sp cp st c p.
Proof.
  intros H HN. induction H as [|m p (A & B & C & L) H IH].
  - simpl. assert (Z : forall l : list nat, poly_at (map (fun _ => 0%R) l) c = 0%R) by (induction l; simpl; [reflexivity|rewrite IHl; ring]). apply Z.
  - rewrite poly_at_csum_cons by lia. rewrite IH. cbn [pval fold_right]. f_equal. unfold mval. rewrite A, B, C. simpl. ring.
Qed.
Lemma extract_val f sp cp st c N p d : Forall (only_ct d) p -> d < N ->
  poly_at (map (evalR f) (extract_coefficients N p)) c = pval f sp cp st c p.
Proof.
  intros H HN. rewrite <- (poly_at_csum f sp cp st c d (Nat.max 2 N) p H) by lia.
  f_equal. unfold extract_coefficients.
  replace (Nat.max 2 N) with (2 + (N - 2)) by lia. rewrite seq_app, map_app, map_app. cbn [seq map app plus]. repeat rewrite map_map.
  f_equal; [eapply ev_sel0; eassumption|]. f_equal.
  - rewrite ev_esub. unfold repl1. rewrite (ev_sel f d (fun k => (k <=? 1) || (N <? k)) p H), (ev_sel0 f d p H), (sel_split f d N p H) by lia. ring.
  - apply map_ext_in. intros n Hn. apply in_seq in Hn. rewrite ev_esub. unfold repln.
    rewrite (ev_sel f d (fun k => (k =? 0) || (k =? n)) p H), (ev_sel0 f d p H), sel_n by lia. ring.
Qed.
Lemma extract_length N p : length (extract_coefficients N p) = Nat.max 2 N.
Proof. unfold extract_coefficients. rewrite app_length, map_length, seq_length. cbn [List.length]. lia. Qed.
Section ExtractCoef.
  Context (P : expr -> Prop) (Pnum : forall q, P (ENum q)) (Pmul : forall a b, P a -> P b -> P (emul a b))
          (Padd : forall a b, P a -> P b -> P (eadd a b)).
  Lemma P_poly_expr p d : Forall (only_ct d) p -> cf P p -> Forall (fun m => mct m = 0) p -> P (poly_expr p).
  Proof.
    intros H C Z. unfold poly_expr. revert C Z. induction H as [|m p (A & B & E & L) H IH]; intros C Z; [apply Pnum|].
    inversion C; inversion Z; subst. cbn [map esum fold_right]. apply Padd; [|now apply IH].
    unfold mono_expr. rewrite A, B, E. rewrite H6. cbn [epow]. repeat apply Pmul; auto.
  Qed.
  Lemma P_extract N d p : Forall (only_ct d) p -> cf P p -> Forall P (extract_coefficients N p).
  Proof.
    intros H C.
    assert (F0 : P (poly_expr (repl0 p))).
    { apply (P_poly_expr _ d); unfold repl0.
      - apply Forall_forall. intros m Hm. apply filter_In in Hm. rewrite Forall_forall in H. apply H. tauto.
      - unfold cf in *. rewrite Forall_forall in *. intros m Hm. apply filter_In in Hm. apply C. tauto.
      - apply Forall_forall. intros m Hm. apply filter_In in Hm. apply Nat.eqb_eq. tauto. }
    assert (G : forall b, P (poly_expr (map drop_ct (filter b p)))).
    { intros b. apply (P_poly_expr _ 0).
      - apply Forall_forall. intros m Hm. apply in_map_iff in Hm. destruct Hm as (m' & <- & Hm). apply filter_In in Hm.
        rewrite Forall_forall in H. destruct (H m' (proj1 Hm)) as (X & Y & Z & _). repeat split; auto.
      - unfold cf in *. rewrite Forall_forall in *. intros m Hm. apply in_map_iff in Hm. destruct Hm as (m' & <- & Hm). apply filter_In in Hm.
        exact (C m' (proj1 Hm)).
      - apply Forall_forall. intros m Hm. apply in_map_iff in Hm. destruct Hm as (m' & <- & _). reflexivity. }
    assert (Sb : forall a b, P a -> P b -> P (esub a b)) by (intros; unfold esub; auto).
    unfold extract_coefficients. constructor; [exact F0|]. constructor; [apply Sb; [apply G|exact F0]|].
    rewrite Forall_map. apply Forall_forall. intros n _. apply Sb; [apply G|exact F0].
  Qed.
End ExtractCoef.
