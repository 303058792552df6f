(** Values, symbols and degrees of legendre_expansion, continued. *)
From Verif Require Import SpecExp.
From Verif Require Export FnExp.
Open Scope string_scope.
Open Scope nat_scope.
Open Scope list_scope.

Section LegSum.
  Context (t_0 t_ex p_0 p_ex : expr).
  Notation term c k a := (emul c (sp_legendre k (calc_scattering_angle t_0 t_ex p_0 p_ex (at_n_a k a)))).
  Notation lsum := (leg_sum t_0 t_ex p_0 p_ex).
  Lemma leg_sum_S coef a n : lsum coef a (S n) =
    (let* x := lsum coef a n in let* c := coef n in Ok (eadd x (term c n a))).
  Proof. unfold leg_sum. rewrite seq_S, fold_left_app. reflexivity. Qed.
  Lemma leg_sum_ind (X : expr -> Prop) coef a n e :
    X (ENum 0) -> (forall x y, X x -> X y -> X (eadd x y)) ->
    (forall k c, k < n -> coef k = Ok c -> X (term c k a)) -> lsum coef a n = Ok e -> X e.
  Proof.
    intros X0 Xa. revert e. induction n as [|n IH]; intros e Ht H.
    - unfold leg_sum in H. simpl in H. okinv H. assumption.
    - rewrite leg_sum_S in H. destruct (lsum coef a n) as [x|] eqn:E; [|discriminate H]. simpl in H.
      destruct (coef n) as [c|] eqn:C; [|discriminate H]. simpl in H. okinv H. apply Xa; [apply IH; auto|]. apply Ht; auto.
  Qed.
  Lemma leg_sum_val f cv x coef a n e :
    (forall k c, k < n -> coef k = Ok c -> evalR f c = cv k) ->
    (forall k, k < n -> evalR f (calc_scattering_angle t_0 t_ex p_0 p_ex (at_n_a k a)) = x) ->
    lsum coef a n = Ok e -> evalR f e = leg_series cv n x.
  Proof.
    revert e. induction n as [|n IH]; intros e Hc Hx H.
    - unfold leg_sum in H. simpl in H. okinv H. apply Q2R_0'.
    - rewrite leg_sum_S in H. destruct (lsum coef a n) as [y|] eqn:E; [|discriminate H]. simpl in H.
      destruct (coef n) as [c|] eqn:C; [|discriminate H]. simpl in H. okinv H.
      rewrite ev_eadd, ev_emul, ev_legendre, Hx by lia. cbn [leg_series]. rewrite (Hc n c) by (auto; lia). rewrite (IH y); auto.
  Qed.
  Lemma leg_sum_ok coef a n : (forall k, k < n -> exists c, coef k = Ok c) -> exists e, lsum coef a n = Ok e.
  Proof.
    induction n as [|n IH]; intros H; [eexists; reflexivity|]. rewrite leg_sum_S. destruct IH as [x ->]; [auto|]. destruct (H n) as [c ->]; [lia|]. eexists. reflexivity.
  Qed.
End LegSum.

(** ** the a-groups of LinComb *)
Lemma expr_eqb_refl e : expr_eqb e e = true.
Proof. induction e; simpl; rewrite ?IHe, ?IHe1, ?IHe2, ?Nat.eqb_refl, ?String.eqb_refl; auto. apply Qeq_bool_refl. Qed.
Lemma expr_eqb_sym a : forall b, expr_eqb a b = expr_eqb b a.
Proof.
  induction a; destruct b; cbn [expr_eqb]; auto; try (now rewrite IHa1, IHa2); try (now rewrite IHa).
  - destruct (Qeq_bool q q0) eqn:E; symmetry; [apply Qeq_bool_sym; assumption|]. apply not_true_is_false. intros F. apply Qeq_bool_sym in F. congruence.
  - apply String.eqb_sym.
  - now rewrite IHa, Nat.eqb_sym.
Qed.
Lemma expr_eqb_trans a : forall b c, expr_eqb a b = true -> expr_eqb b c = true -> expr_eqb a c = true.
Proof.
  induction a; intros b c H1 H2; destruct b; try discriminate H1; destruct c; try discriminate H2; cbn [expr_eqb] in *; auto;
    try (apply andb_true_iff in H1; apply andb_true_iff in H2; destruct H1, H2; apply andb_true_iff; split; eauto; fail); eauto.
  - eapply Qeq_bool_trans; eassumption.
  - apply String.eqb_eq in H1, H2. apply String.eqb_eq. congruence.
  - apply andb_true_iff in H1; apply andb_true_iff in H2; destruct H1 as [? X], H2 as [? Y]. apply Nat.eqb_eq in X, Y. apply andb_true_iff; split; eauto.
    apply Nat.eqb_eq. congruence.
Qed.
Lemma expr_eqb_ev f a : forall b, expr_eqb a b = true -> evalR f a = evalR f b.
Proof.
  induction a; intros b H; destruct b; try discriminate H; cbn [expr_eqb evalR] in *;
    try (apply andb_true_iff in H; destruct H; rewrite (IHa1 b1), (IHa2 b2) by assumption; reflexivity);
    try (rewrite (IHa b) by assumption; reflexivity); auto.
  - now apply Qeq_bool_R.
  - apply String.eqb_eq in H. now subst.
  - apply andb_true_iff in H. destruct H as [H X]. apply Nat.eqb_eq in X. subst. now rewrite (IHa b).
Qed.
Lemma expr_eqb_wd f a : forall b, expr_eqb a b = true -> wd f a -> wd f b.
Proof.
  induction a; intros b H; destruct b; try discriminate H; cbn [expr_eqb wd] in *; auto.
  - apply andb_true_iff in H; destruct H. intros []. split; eauto.
  - apply andb_true_iff in H; destruct H. intros []. split; eauto.
  - apply andb_true_iff in H; destruct H as [E1 E2]. intros (? & ? & ?). rewrite <- (expr_eqb_ev f _ _ E2). repeat split; eauto.
  - apply andb_true_iff in H; destruct H. eauto.
  - intros []. rewrite <- (expr_eqb_ev f _ _ H). split; eauto.
  - intros []. rewrite <- (expr_eqb_ev f _ _ H). split; eauto.
  - intros []. rewrite <- (expr_eqb_ev f _ _ H). split; eauto.
Qed.
Lemma expr_eqb_syms a : forall b, expr_eqb a b = true -> syms a = syms b.
Proof.
  induction a; intros b H; destruct b; try discriminate H; cbn [expr_eqb syms] in *; auto;
    try (apply andb_true_iff in H; destruct H; rewrite (IHa1 b1), (IHa2 b2) by assumption; reflexivity).
  - apply String.eqb_eq in H. now subst.
  - apply andb_true_iff in H. destruct H. auto.
Qed.
Lemma atrip_refl a : atrip_eqb a a = true. Proof. unfold atrip_eqb. now rewrite !expr_eqb_refl. Qed.
Lemma atrip_sym a b : atrip_eqb a b = atrip_eqb b a. Proof. unfold atrip_eqb. now rewrite (expr_eqb_sym (a0 a)), (expr_eqb_sym (a1 a)), (expr_eqb_sym (a2 a)). Qed.
Lemma atrip_inv a b : atrip_eqb a b = true -> expr_eqb (a0 a) (a0 b) = true /\ expr_eqb (a1 a) (a1 b) = true /\ expr_eqb (a2 a) (a2 b) = true.
Proof. unfold atrip_eqb. rewrite !andb_true_iff. tauto. Qed.
Lemma atrip_trans a b c : atrip_eqb a b = true -> atrip_eqb b c = true -> atrip_eqb a c = true.
Proof.
  intros H1 H2. apply atrip_inv in H1, H2. destruct H1 as (A1 & A2 & A3), H2 as (B1 & B2 & B3). unfold atrip_eqb. rewrite !andb_true_iff.
  repeat split; eapply expr_eqb_trans; eassumption.
Qed.
Lemma atrip_ev f a b : atrip_eqb a b = true -> ev_a f a = ev_a f b.
Proof. intros H. apply atrip_inv in H. destruct H as (A & B & C). unfold ev_a. now rewrite (expr_eqb_ev f _ _ A), (expr_eqb_ev f _ _ B), (expr_eqb_ev f _ _ C). Qed.
Lemma atrip_syms a b : atrip_eqb a b = true -> a_syms a = a_syms b.
Proof. intros H. apply atrip_inv in H. destruct H as (A & B & C). unfold a_syms. now rewrite (expr_eqb_syms _ _ A), (expr_eqb_syms _ _ B), (expr_eqb_syms _ _ C). Qed.
Lemma atrip_wd f a b : atrip_eqb a b = true -> wd_a f a -> wd_a f b.
Proof. intros H (W0 & W1 & W2). apply atrip_inv in H. destruct H as (A & B & C). repeat split; eapply expr_eqb_wd; eassumption. Qed.

Notation wchoice := (expr * scat)%type.
Definition same_a (a : atrip) (c : wchoice) : bool := atrip_eqb a (scat_a (snd c)).
Definition grp_ok (l : list wchoice) (gs : list (atrip * list wchoice)) : Prop :=
  (forall g, In g gs -> snd g = filter (same_a (fst g)) l /\ snd g <> []) /\
  ForallOrdPairs (fun g h => atrip_eqb (fst g) (fst h) = false) gs /\
  (forall c, In c l -> exists g, In g gs /\ same_a (fst g) c = true) /\
  (forall h : wchoice -> R, fold_right (fun g acc => (fold_right (fun c acc => (h c + acc)%R) 0%R (snd g) + acc)%R) 0%R gs
     = fold_right (fun c acc => (h c + acc)%R) 0%R l).
Lemma fr_app (h : wchoice -> R) l c : fold_right (fun c acc => (h c + acc)%R) 0%R (l ++ [c]) = (fold_right (fun c acc => (h c + acc)%R) 0%R l + h c)%R.
Proof. induction l as [|x l IH]; simpl; [ring|]. rewrite IH. ring. Qed.
Lemma gi_keys a c gs g : In g (group_insert a c gs) -> (exists g', In g' gs /\ fst g' = fst g) \/ g = (a, [c]).
Proof.
  induction gs as [|[b cs] gs IH]; simpl; [intros [<-|[]]; auto|]. destruct (atrip_eqb b a); simpl; intros [<-|H].
  - left. eexists. split; [left; reflexivity|reflexivity].
  - left. exists g. auto.
  - left. exists (b, cs). auto.
  - destruct (IH H) as [(g' & I & E)|E]; [left; exists g'; auto|auto].
Qed.
Lemma gi_elem a c gs g : ForallOrdPairs (fun g h => atrip_eqb (fst g) (fst h) = false) gs ->
  In g (group_insert a c gs) ->
  (In g gs /\ atrip_eqb (fst g) a = false) \/
  (exists cs, In (fst g, cs) gs /\ snd g = cs ++ [c] /\ atrip_eqb (fst g) a = true) \/
  (g = (a, [c]) /\ forall h, In h gs -> atrip_eqb (fst h) a = false).
Proof.
  induction gs as [|[b cs] gs IH]; simpl; intros P H.
  - destruct H as [<-|[]]. right. right. split; [reflexivity|]. intros h [].
  - inversion P as [|? ? F P']; subst. destruct (atrip_eqb b a) eqn:E.
    + destruct H as [<-|H]; [right; left; exists cs; simpl; auto|]. left. split; [auto|].
      rewrite Forall_forall in F. specialize (F g H). simpl in F.
      apply not_true_is_false. intros X. rewrite atrip_sym in X. rewrite (atrip_trans _ _ _ E X) in F. discriminate F.
    + destruct H as [<-|H]; [left; auto|]. destruct (IH P' H) as [[A B]|[(cs' & A & B & D)|[A B]]]; [left; auto|right; left; exists cs'; auto|].
      right. right. split; [assumption|]. intros h [<-|X]; auto.
Qed.
Lemma gi_sum (h : wchoice -> R) a c gs :
  fold_right (fun g acc => (fold_right (fun c acc => (h c + acc)%R) 0%R (snd g) + acc)%R) 0%R (group_insert a c gs)
  = (fold_right (fun g acc => (fold_right (fun c acc => (h c + acc)%R) 0%R (snd g) + acc)%R) 0%R gs + h c)%R.
Proof.
  induction gs as [|[b cs] gs IH]; cbn [group_insert fold_right snd]; [ring|]. destruct (atrip_eqb b a); cbn [fold_right snd].
  - rewrite fr_app. ring.
  - rewrite IH. ring.
Qed.
Lemma gi_has a c gs : exists g, In g (group_insert a c gs) /\ atrip_eqb (fst g) a = true.
Proof.
  induction gs as [|[b cs] gs (g & A & B)]; simpl; [exists (a, [c]); simpl; auto using atrip_refl|].
  destruct (atrip_eqb b a) eqn:E; [exists (b, cs ++ [c]); simpl; auto|]. exists g. simpl. auto.
Qed.
Lemma gi_mono a c gs g : In g gs -> exists g', In g' (group_insert a c gs) /\ fst g' = fst g.
Proof.
  induction gs as [|[b cs] gs IH]; simpl; [tauto|]. destruct (atrip_eqb b a); intros [<-|H].
  - eexists. split; [left; reflexivity|reflexivity].
  - exists g. simpl. auto.
  - eexists. split; [left; reflexivity|reflexivity].
  - destruct (IH H) as (g' & A & B). exists g'. simpl. auto.
Qed.
Lemma gi_pairs a c gs : ForallOrdPairs (fun g h : atrip * list wchoice => atrip_eqb (fst g) (fst h) = false) gs ->
  ForallOrdPairs (fun g h => atrip_eqb (fst g) (fst h) = false) (group_insert a c gs).
Proof.
  induction gs as [|[b cs] gs IH]; simpl; intros P; [repeat constructor|]. inversion P as [|? ? F P']; subst. destruct (atrip_eqb b a) eqn:E.
  - constructor; assumption.
  - constructor; [|auto]. apply Forall_forall. intros g Hg. simpl. destruct (gi_keys _ _ _ _ Hg) as [(g' & I & X)| ->].
    + rewrite <- X. rewrite Forall_forall in F. exact (F g' I).
    + exact E.
Qed.
Lemma a_groups_snoc l c : a_groups (l ++ [c]) = group_insert (scat_a (snd c)) c (a_groups l).
Proof. unfold a_groups. now rewrite fold_left_app. Qed.
Lemma filter_one (p : wchoice -> bool) c : filter p [c] = if p c then [c] else []. Proof. reflexivity. Qed.
Lemma a_groups_ok l : grp_ok l (a_groups l).
Proof.
  induction l as [|c l IH] using rev_ind.
  - repeat split; try (intros ? []; fail); simpl; try constructor. destruct H.
    destruct H.
  - rewrite a_groups_snoc. destruct IH as (A & B & C & D). repeat split.
    + destruct (gi_elem _ _ _ _ B H) as [[I E]|[(cs & I & E & T)|[E N]]].
      * rewrite filter_app. rewrite (filter_one (same_a (fst g)) c). unfold same_a at 2. cbv beta. rewrite E. cbn iota. rewrite app_nil_r. now apply A.
      * rewrite filter_app. rewrite (filter_one (same_a (fst g)) c). unfold same_a at 2. cbv beta. rewrite T, E. f_equal. exact (proj1 (A _ I)).
      * subst g. cbn [fst snd]. rewrite filter_app. rewrite (filter_one (same_a (scat_a (snd c))) c). unfold same_a at 2. cbv beta. rewrite atrip_refl.
        replace (filter (same_a (scat_a (snd c))) l) with (@nil wchoice); [reflexivity|].
        symmetry. destruct (filter (same_a (scat_a (snd c))) l) as [|x r] eqn:F; [reflexivity|].
        assert (X : In x (filter (same_a (scat_a (snd c))) l)) by (rewrite F; left; reflexivity). apply filter_In in X. destruct X as [X1 X2].
        destruct (C x X1) as (g & G1 & G2). pose proof (N g G1) as Z. unfold same_a in *.
        rewrite atrip_sym in X2. rewrite (atrip_trans _ _ _ G2 X2) in Z. discriminate Z.
    + destruct (gi_elem _ _ _ _ B H) as [[I E]|[(cs & I & E & T)|[E N]]].
      * now apply A.
      * rewrite E. intros X. now apply app_eq_nil in X.
      * subst g. discriminate.
    + now apply gi_pairs.
    + intros x Hx. apply in_app_or in Hx. destruct Hx as [Hx|[<-|[]]].
      * destruct (C x Hx) as (g & G1 & G2). destruct (gi_mono (scat_a (snd c)) c _ _ G1) as (g' & I & E). exists g'. split; [assumption|]. now rewrite E.
      * destruct (gi_has (scat_a (snd c)) c (a_groups l)) as (g & I & E). exists g. auto.
    + intros h. rewrite gi_sum, fr_app, D. reflexivity.
Qed.
