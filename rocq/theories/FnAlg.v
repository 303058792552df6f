(** Meaning of the expanded products: values, degrees and coefficients of the monomials. *)
From Verif Require Export ExprFacts.
Open Scope nat_scope.
Open Scope string_scope.
Open Scope list_scope.

(** ** Symbols *)
Definition upd (f : string -> R) (x : string) (v : R) (s : string) : R := if String.eqb s x then v else f s.
Lemma evalR_ext f g e : (forall s, In s (syms e) -> f s = g s) -> evalR f e = evalR g e.
Proof.
  induction e; cbn [evalR syms]; intros H; auto; try (rewrite IHe by auto; reflexivity);
    try (rewrite IHe1, IHe2 by (intros; apply H; apply in_or_app; auto); reflexivity).
  apply H. simpl. auto.
Qed.
Lemma wd_ext f g e : (forall s, In s (syms e) -> f s = g s) -> wd f e -> wd g e.
Proof.
  induction e; cbn [wd syms]; intros H W; auto; try (apply IHe; auto; tauto);
    try (split; [apply IHe1|apply IHe2]; try tauto; intros; apply H; apply in_or_app; auto).
  - destruct W as (W1 & W2 & W3). split; [|split].
    + apply IHe1; auto. intros; apply H; apply in_or_app; auto.
    + apply IHe2; auto. intros; apply H; apply in_or_app; auto.
    + rewrite <- (evalR_ext f g e2); auto. intros; apply H; apply in_or_app; auto.
  - destruct W as [W1 W2]. split; [auto|]. rewrite <- (evalR_ext f g e); auto.
  - destruct W as [W1 W2]. split; [auto|]. rewrite <- (evalR_ext f g e); auto.
  - destruct W as [W1 W2]. split; [auto|]. rewrite <- (evalR_ext f g e); auto.
Qed.
(** free of the scattering directions *)
Definition free (e : expr) : Prop := ~ In "theta_s" (syms e) /\ ~ In "phi_s" (syms e).
Definition at_dir (f : string -> R) (th ph : R) : string -> R := upd (upd f "theta_s" th) "phi_s" ph.
Lemma at_dir_theta f th ph : at_dir f th ph "theta_s" = th. Proof. reflexivity. Qed.
Lemma at_dir_phi f th ph : at_dir f th ph "phi_s" = ph. Proof. reflexivity. Qed.
Lemma at_dir_other f th ph s : s <> "theta_s" -> s <> "phi_s" -> at_dir f th ph s = f s.
Proof.
  intros H1 H2. unfold at_dir, upd. destruct (String.eqb_spec s "phi_s"); [contradiction|].
  destruct (String.eqb_spec s "theta_s"); [contradiction|reflexivity].
Qed.
Lemma free_ev f th ph e : free e -> evalR (at_dir f th ph) e = evalR f e.
Proof. intros [H1 H2]. apply evalR_ext. intros s Hs. apply at_dir_other; intros ->; contradiction. Qed.
Lemma free_wd f th ph e : free e -> wd (at_dir f th ph) e -> wd f e.
Proof. intros [H1 H2]. apply wd_ext. intros s Hs. apply at_dir_other; intros ->; contradiction. Qed.
Lemma free_wd' f th ph e : free e -> wd f e -> wd (at_dir f th ph) e.
Proof. intros [H1 H2]. apply wd_ext. intros s Hs. symmetry. apply at_dir_other; intros ->; contradiction. Qed.

(** symbols of the smart constructors *)
Lemma syms_eadd a b : incl (syms (eadd a b)) (syms a ++ syms b).
Proof. intros s. destruct a, b; cbn [eadd syms]; try (destruct (Qeq_bool _ _)); cbn [syms]; rewrite ?in_app_iff; simpl; tauto. Qed.
Lemma syms_emul a b : incl (syms (emul a b)) (syms a ++ syms b).
Proof. intros s. destruct a, b; cbn [emul syms]; repeat (destruct (Qeq_bool _ _)); cbn [syms]; rewrite ?in_app_iff; simpl; tauto. Qed.
Lemma syms_ediv a b : incl (syms (ediv a b)) (syms a ++ syms b).
Proof. intros s. destruct a, b; cbn [ediv syms]; repeat (destruct (Qeq_bool _ _)); cbn [syms]; rewrite ?in_app_iff; simpl; tauto. Qed.
Lemma syms_epow a n : incl (syms (epow a n)) (syms a).
Proof. intros s. destruct n as [|[|n]]; simpl; try tauto. destruct a; simpl; tauto. Qed.
Lemma syms_esin a : incl (syms (esin a)) (syms a).
Proof. intros s. destruct a; simpl; try tauto. destruct (Qeq_bool _ _); simpl; tauto. Qed.
Lemma syms_ecos a : incl (syms (ecos a)) (syms a).
Proof. intros s. destruct a; simpl; try tauto. destruct (Qeq_bool _ _); simpl; tauto. Qed.
Lemma syms_esub a b : incl (syms (esub a b)) (syms a ++ syms b).
Proof.
  intros s H. apply syms_eadd in H. rewrite in_app_iff in *. destruct H as [H|H]; [auto|]. apply syms_emul in H. simpl in H. auto.
Qed.

(** a set of symbols [S]: everything built from expressions over [S] is over [S] *)
Section Over.
  Context (S : string -> Prop).
  Definition over (e : expr) : Prop := forall s, In s (syms e) -> S s.
  Lemma over_num q : over (ENum q). Proof. intros s []. Qed.
  Lemma over_pi : over EPi. Proof. intros s []. Qed.
  Lemma over_add a b : over a -> over b -> over (EAdd a b).
  Proof. intros Ha Hb s H. cbn [syms] in H. apply in_app_or in H. destruct H; auto. Qed.
  Lemma over_mul a b : over a -> over b -> over (EMul a b).
  Proof. intros Ha Hb s H. cbn [syms] in H. apply in_app_or in H. destruct H; auto. Qed.
  Lemma over_div a b : over a -> over b -> over (EDiv a b).
  Proof. intros Ha Hb s H. cbn [syms] in H. apply in_app_or in H. destruct H; auto. Qed.
  Lemma over_eadd a b : over a -> over b -> over (eadd a b).
  Proof. intros Ha Hb s H. apply syms_eadd in H. apply in_app_or in H. destruct H; auto. Qed.
  Lemma over_emul a b : over a -> over b -> over (emul a b).
  Proof. intros Ha Hb s H. apply syms_emul in H. apply in_app_or in H. destruct H; auto. Qed.
  Lemma over_ediv a b : over a -> over b -> over (ediv a b).
  Proof. intros Ha Hb s H. apply syms_ediv in H. apply in_app_or in H. destruct H; auto. Qed.
  Lemma over_esub a b : over a -> over b -> over (esub a b).
  Proof. intros Ha Hb s H. apply syms_esub in H. apply in_app_or in H. destruct H; auto. Qed.
  Lemma over_epow a n : over a -> over (epow a n). Proof. intros Ha s H. apply syms_epow in H. auto. Qed.
  Lemma over_esin a : over a -> over (esin a). Proof. intros Ha s H. apply syms_esin in H. auto. Qed.
  Lemma over_ecos a : over a -> over (ecos a). Proof. intros Ha s H. apply syms_ecos in H. auto. Qed.
  Lemma over_p32 a : over a -> over (EP32 a). Proof. intros Ha s H. auto. Qed.
  Lemma over_sqrt a : over a -> over (ESqrt a). Proof. intros Ha s H. auto. Qed.
  Lemma over_esum l : Forall over l -> over (esum l).
  Proof. induction 1; simpl; [apply over_num|]. now apply over_eadd. Qed.
  Lemma over_subst x v e : (forall s, In s (syms e) -> s <> x -> S s) -> over v -> over (subst x v e).
  Proof.
    intros H Hv. induction e; cbn [subst syms] in *; try (intros s' []);
      try (apply over_add; [apply IHe1|apply IHe2]; intros; apply H; auto; apply in_or_app; auto);
      try (apply over_mul; [apply IHe1|apply IHe2]; intros; apply H; auto; apply in_or_app; auto);
      try (apply over_div; [apply IHe1|apply IHe2]; intros; apply H; auto; apply in_or_app; auto);
      try (intros s' Hs'; apply (IHe H s' Hs')).
    destruct (String.eqb_spec s x); [assumption|]. intros s' [<-|[]]. apply H; simpl; auto.
  Qed.
End Over.
Lemma free_over e : free e <-> over (fun s => s <> "theta_s" /\ s <> "phi_s") e.
Proof.
  split.
  - intros [H1 H2] s Hs. split; intros ->; contradiction.
  - intros H. split; intros Hs; destruct (H _ Hs); congruence.
Qed.

(** ** Values *)
Section Values.
  Context (f : string -> R).
  Definition mval (sp cp st ct : R) (m : mono) : R :=
    (evalR f (mc m) * sp ^ msp m * cp ^ mcp m * st ^ mst m * ct ^ mct m)%R.
  Definition pval (sp cp st ct : R) (p : poly) : R := fold_right (fun m acc => (mval sp cp st ct m + acc)%R) 0%R p.
  Context (sp cp st ct : R).
  Notation mv := (mval sp cp st ct).
  Notation pv := (pval sp cp st ct).
  Lemma pval_app p q : pv (p ++ q) = (pv p + pv q)%R.
  Proof. induction p as [|m p IH]; simpl; [ring|]. rewrite IH. ring. Qed.
  Lemma mval_mmul a b : mv (mmul a b) = (mv a * mv b)%R.
  Proof. unfold mval, mmul. simpl. rewrite ev_emul, !pow_add. ring. Qed.
  Lemma pval_map_mmul a q : pv (map (mmul a) q) = (mv a * pv q)%R.
  Proof. induction q as [|m q IH]; simpl; [ring|]. rewrite IH, mval_mmul. ring. Qed.
  Lemma pval_pmul p q : pv (pmul p q) = (pv p * pv q)%R.
  Proof. unfold pmul. induction p as [|m p IH]; simpl; [ring|]. rewrite pval_app, IH, pval_map_mmul. ring. Qed.
  Lemma pval_one : pv pone = 1%R.
  Proof. simpl. unfold mval. simpl. rewrite Q2R_1'. ring. Qed.
  Lemma pval_ppow p n : pv (ppow p n) = (pv p ^ n)%R.
  Proof. induction n as [|n IH]; [apply pval_one|]. cbn [ppow pow]. now rewrite pval_pmul, IH. Qed.
  Lemma pval_const e : pv (pconst e) = evalR f e.
  Proof. simpl. unfold mval. simpl. ring. Qed.
  Lemma pval_flat_map (g : mono -> poly) p :
    pv (flat_map g p) = fold_right (fun m acc => (pv (g m) + acc)%R) 0%R p.
  Proof. induction p as [|m p IH]; simpl; [reflexivity|]. now rewrite pval_app, IH. Qed.
End Values.

Lemma expand_val f e :
  pval f (sin (f "phi_s")) (cos (f "phi_s")) (sin (f "theta_s")) (cos (f "theta_s")) (expand e) = evalR f e.
Proof.
  induction e; cbn [expand]; try apply pval_const.
  - destruct (Qeq_bool q 0) eqn:E; [|apply pval_const]. apply Qeq_bool_R in E. cbn [evalR]. rewrite E, Q2R_0'. reflexivity.
  - rewrite pval_app, IHe1, IHe2. reflexivity.
  - rewrite pval_pmul, IHe1, IHe2. reflexivity.
  - rewrite pval_pmul, IHe1, pval_const. cbn [evalR]. rewrite Q2R_1'. unfold Rdiv. ring.
  - rewrite pval_ppow, IHe. reflexivity.
  - destruct e; try apply pval_const. destruct (String.eqb_spec s "phi_s") as [->|].
    { simpl. unfold mval. simpl. rewrite Q2R_1'. ring. }
    destruct (String.eqb_spec s "theta_s") as [->|]; [|apply pval_const].
    simpl. unfold mval. simpl. rewrite Q2R_1'. ring.
  - destruct e; try apply pval_const. destruct (String.eqb_spec s "phi_s") as [->|].
    { simpl. unfold mval. simpl. rewrite Q2R_1'. ring. }
    destruct (String.eqb_spec s "theta_s") as [->|]; [|apply pval_const].
    simpl. unfold mval. simpl. rewrite Q2R_1'. ring.
Qed.

(** ** Degrees: [D e d p]: in every monomial, (power of sin theta_s) - (powers of sin, cos phi_s) = e,
    and the theta_s-powers sum to at most d *)
Definition dm (e : Z) (d : nat) (m : mono) : Prop :=
  (Z.of_nat (mst m) - Z.of_nat (msp m) - Z.of_nat (mcp m) = e)%Z /\ mst m + mct m <= d.
Definition D (e : Z) (d : nat) (p : poly) : Prop := Forall (dm e d) p.
Lemma D_app e d p q : D e d p -> D e d q -> D e d (p ++ q). Proof. intros. now apply Forall_app. Qed.
Lemma D_le e d d' p : D e d p -> d <= d' -> D e d' p.
Proof. intros H L. eapply Forall_impl; [|exact H]. intros m [A B]. split; [assumption|lia]. Qed.
Lemma dm_mmul e1 d1 e2 d2 a b : dm e1 d1 a -> dm e2 d2 b -> dm (e1 + e2)%Z (d1 + d2) (mmul a b).
Proof. intros [A B] [A' B']. unfold dm, mmul. simpl. split; lia. Qed.
Lemma D_pmul e1 d1 e2 d2 p q : D e1 d1 p -> D e2 d2 q -> D (e1 + e2)%Z (d1 + d2) (pmul p q).
Proof.
  intros Hp Hq. unfold D, pmul. rewrite Forall_flat_map. eapply Forall_impl; [|exact Hp]. intros a Ha. rewrite Forall_map.
  eapply Forall_impl; [|exact Hq]. intros b Hb. now apply dm_mmul.
Qed.
Lemma D_ppow d p n : D 0 d p -> D 0 (n * d) (ppow p n).
Proof.
  intros H. induction n as [|n IH]; simpl.
  - constructor; [split; simpl; lia|constructor].
  - apply (D_pmul 0 d 0 (n * d)); assumption.
Qed.
Lemma D_const e : D 0 0 (pconst e). Proof. constructor; [split; simpl; lia|constructor]. Qed.
Lemma D_num_inv e d q : D e d (expand (ENum q)) -> Qeq_bool q 0 = true \/ e = 0%Z.
Proof.
  cbn [expand]. destruct (Qeq_bool q 0); [auto|]. intros H. right. inversion H as [|m p [A _] B]; subst. simpl in *. reflexivity.
Qed.
Lemma D_num q : D 0 0 (expand (ENum q)). Proof. cbn [expand]. destruct (Qeq_bool q 0); [constructor|apply D_const]. Qed.
Lemma D_num_zero e d q : Qeq_bool q 0 = true -> D e d (expand (ENum q)).
Proof. intros H. cbn [expand]. rewrite H. constructor. Qed.
Lemma Qred_eq0 q : Qeq_bool (Qred q) 0 = Qeq_bool q 0.
Proof.
  destruct (Qeq_bool q 0) eqn:E.
  - apply Qeq_bool_iff in E. apply Qeq_bool_iff. now rewrite Qred_correct.
  - destruct (Qeq_bool (Qred q) 0) eqn:E'; [|reflexivity]. apply Qeq_bool_iff in E'. rewrite Qred_correct in E'.
    apply Qeq_bool_iff in E'. congruence.
Qed.
Lemma Qmul_eq0 p q : Qeq_bool p 0 = true \/ Qeq_bool q 0 = true -> Qeq_bool (Qred (p * q)) 0 = true.
Proof.
  rewrite Qred_eq0. intros [H|H]; apply Qeq_bool_iff in H; apply Qeq_bool_iff; rewrite H; ring.
Qed.
Lemma Qeq1_not0 p : Qeq_bool p 1 = true -> Qeq_bool p 0 = false.
Proof.
  intros H. destruct (Qeq_bool p 0) eqn:E; [|reflexivity]. apply Qeq_bool_iff in H. apply Qeq_bool_iff in E. rewrite E in H. discriminate.
Qed.
Lemma expand_emul_cases a b :
  expand (emul a b) = [] \/
  (exists q, a = ENum q /\ Qeq_bool q 1 = true /\ expand (emul a b) = expand b) \/
  (exists q, b = ENum q /\ Qeq_bool q 1 = true /\ expand (emul a b) = expand a) \/
  expand (emul a b) = pmul (expand a) (expand b) \/
  (exists p q, a = ENum p /\ b = ENum q /\ Qeq_bool p 0 = false /\ Qeq_bool q 0 = false).
Proof.
  assert (Z : expand (ENum 0) = []) by reflexivity.
  destruct a; destruct b; cbn [emul];
    try (destruct (Qeq_bool q 0) eqn:E0; [left; exact Z|destruct (Qeq_bool q 1) eqn:E1; [right; left; exists q; split; [reflexivity|split; [assumption|reflexivity]]|]]);
    try (destruct (Qeq_bool q 0) eqn:E0; [left; exact Z|destruct (Qeq_bool q 1) eqn:E1; [right; right; left; exists q; split; [reflexivity|split; [assumption|reflexivity]]|]]);
    try (right; right; right; left; reflexivity).
  destruct (Qeq_bool q 0) eqn:E0.
  { left. cbn [expand]. rewrite Qmul_eq0 by auto. reflexivity. }
  destruct (Qeq_bool q0 0) eqn:E1.
  { left. cbn [expand]. rewrite Qmul_eq0 by auto. reflexivity. }
  do 4 right. eauto 8.
Qed.
Lemma D_emul e1 d1 e2 d2 a b : D e1 d1 (expand a) -> D e2 d2 (expand b) -> D (e1 + e2)%Z (d1 + d2) (expand (emul a b)).
Proof.
  intros Ha Hb. destruct (expand_emul_cases a b) as [E|[(q & -> & Q1 & E)|[(q & -> & Q1 & E)|[E|(p & q & -> & -> & P0 & Q0)]]]].
  - rewrite E. constructor.
  - rewrite E. destruct (D_num_inv _ _ _ Ha) as [X| ->]; [rewrite Qeq1_not0 in X by assumption; discriminate|].
    eapply D_le; [exact Hb|lia].
  - rewrite E. destruct (D_num_inv _ _ _ Hb) as [X| ->]; [rewrite Qeq1_not0 in X by assumption; discriminate|].
    rewrite Z.add_0_r. eapply D_le; [exact Ha|lia].
  - rewrite E. now apply D_pmul.
  - destruct (D_num_inv _ _ _ Ha) as [X| ->]; [congruence|]. destruct (D_num_inv _ _ _ Hb) as [X| ->]; [congruence|].
    cbn [emul]. eapply D_le; [apply D_num|lia].
Qed.
Lemma Qadd0_l p q : Qeq_bool p 0 = true -> Qeq_bool q 0 = true -> Qeq_bool (Qred (p + q)) 0 = true.
Proof. rewrite Qred_eq0. intros H1 H2. apply Qeq_bool_iff in H1. apply Qeq_bool_iff in H2. apply Qeq_bool_iff. rewrite H1, H2. reflexivity. Qed.
Lemma expand_eadd_cases a b :
  expand (eadd a b) = expand a ++ expand b \/ expand (eadd a b) = expand b \/ expand (eadd a b) = expand a \/
  (exists p q, a = ENum p /\ b = ENum q).
Proof.
  destruct a; destruct b; cbn [eadd];
    try (left; reflexivity);
    try (destruct (Qeq_bool q 0) eqn:E0; [auto|left; reflexivity]).
  right. right. right. eauto.
Qed.
Lemma D_eadd e d a b : D e d (expand a) -> D e d (expand b) -> D e d (expand (eadd a b)).
Proof.
  intros Ha Hb. destruct (expand_eadd_cases a b) as [E|[E|[E|(p & q & -> & ->)]]]; try (rewrite E); try assumption.
  - now apply D_app.
  - destruct (D_num_inv _ _ _ Ha) as [X| ->].
    + destruct (D_num_inv _ _ _ Hb) as [Y| ->].
      * apply D_num_zero. now apply Qadd0_l.
      * cbn [eadd]. eapply D_le; [apply D_num|lia].
    + cbn [eadd]. eapply D_le; [apply D_num|lia].
Qed.
Lemma qpow_zero q n : Qeq_bool q 0 = true -> Qeq_bool (qpow q (S n)) 0 = true.
Proof. intros H. cbn [qpow]. apply Qmul_eq0. auto. Qed.
Lemma D_epow d a n : D 0 d (expand a) -> D 0 (n * d) (expand (epow a n)).
Proof.
  intros H. destruct n as [|[|n]].
  - apply D_num.
  - cbn [epow]. eapply D_le; [exact H|lia].
  - destruct a; try (apply D_ppow; exact H). unfold epow. eapply D_le; [apply D_num|lia].
Qed.
(** a direction-free expression has no powers at all *)
Lemma free_inv2 a b (c : expr -> expr -> expr) : (forall x y, syms (c x y) = syms x ++ syms y) -> free (c a b) -> free a /\ free b.
Proof. intros Hs [H1 H2]. rewrite Hs in *. split; split; intros X; [apply H1|apply H2|apply H1|apply H2]; apply in_or_app; auto. Qed.
Lemma D_free e : free e -> D 0 0 (expand e).
Proof.
  induction e; intros H; cbn [expand]; try apply D_const.
  - apply D_num.
  - apply (free_inv2 _ _ EAdd) in H; [|reflexivity]. destruct H. apply D_app; auto.
  - apply (free_inv2 _ _ EMul) in H; [|reflexivity]. destruct H. apply (D_pmul 0 0 0 0); auto.
  - apply (free_inv2 _ _ EDiv) in H; [|reflexivity]. destruct H. apply (D_pmul 0 0 0 0); [auto|apply D_const].
  - eapply D_le; [apply (D_ppow 0); apply IHe; exact H|lia].
  - destruct e; try apply D_const. destruct H as [H1 H2]. cbn [syms] in *.
    destruct (String.eqb_spec s "phi_s"); [subst; exfalso; apply H2; simpl; auto|].
    destruct (String.eqb_spec s "theta_s"); [subst; exfalso; apply H1; simpl; auto|]. apply D_const.
  - destruct e; try apply D_const. destruct H as [H1 H2]. cbn [syms] in *.
    destruct (String.eqb_spec s "phi_s"); [subst; exfalso; apply H2; simpl; auto|].
    destruct (String.eqb_spec s "theta_s"); [subst; exfalso; apply H1; simpl; auto|]. apply D_const.
Qed.

(** ** Coefficients *)
(** [cf P p]: every coefficient satisfies P, for a property P of expressions closed under the
    operations that [expand] applies to coefficients *)
Definition cf (P : expr -> Prop) (p : poly) : Prop := Forall (fun m => P (mc m)) p.
Section Coef.
  Context (P : expr -> Prop).
  Hypothesis (Pnum : forall q, P (ENum q)) (Pmul : forall a b, P a -> P b -> P (emul a b)).
  Lemma cf_app p q : cf P p -> cf P q -> cf P (p ++ q). Proof. intros. now apply Forall_app. Qed.
  Lemma cf_pmul p q : cf P p -> cf P q -> cf P (pmul p q).
  Proof.
    intros Hp Hq. unfold cf, pmul. rewrite Forall_flat_map. eapply Forall_impl; [|exact Hp]. intros a Ha. rewrite Forall_map.
    eapply Forall_impl; [|exact Hq]. intros b Hb. simpl. auto.
  Qed.
  Lemma cf_ppow p n : cf P p -> cf P (ppow p n).
  Proof. intros H. induction n as [|n IH]; simpl; [constructor; [apply Pnum|constructor]|now apply cf_pmul]. Qed.
  Lemma cf_const e : P e -> cf P (pconst e). Proof. intros. constructor; [assumption|constructor]. Qed.
  Lemma cf_flat_map (g : mono -> poly) p : (forall m, P (mc m) -> cf P (g m)) -> cf P p -> cf P (flat_map g p).
  Proof. intros Hg Hp. unfold cf. rewrite Forall_flat_map. eapply Forall_impl; [|exact Hp]. exact Hg. Qed.
End Coef.

(** expressions in which theta_s and phi_s occur only as the arguments of sines and cosines *)
Fixpoint okx (e : expr) : Prop :=
  match e with
  | ENum _ | EPi => True
  | EAdd a b | EMul a b => okx a /\ okx b
  | EDiv a b => okx a /\ free b
  | EPow a _ => okx a
  | ESin (ESym _) | ECos (ESym _) => True
  | _ => free e
  end.
Lemma okx_free e : free e -> okx e.
Proof.
  induction e; intros H; cbn [okx]; auto.
  - apply (free_inv2 _ _ EAdd) in H; [|reflexivity]. tauto.
  - apply (free_inv2 _ _ EMul) in H; [|reflexivity]. tauto.
  - apply (free_inv2 _ _ EDiv) in H; [|reflexivity]. tauto.
  - destruct e; auto.
  - destruct e; auto.
Qed.
Lemma free_emul a b : free a -> free b -> free (emul a b).
Proof. rewrite !free_over. apply over_emul. Qed.
Lemma free_num q : free (ENum q). Proof. split; intros []. Qed.
Lemma cf_expand_free e : okx e -> cf free (expand e).
Proof.
  pose proof free_num as Fn. pose proof free_emul as Fm.
  induction e; cbn [okx expand]; intros H; try (apply cf_const; assumption).
  - destruct (Qeq_bool q 0); [constructor|apply cf_const, Fn].
  - apply cf_const. split; intros [].
  - destruct H. apply cf_app; auto.
  - destruct H. apply cf_pmul; auto.
  - destruct H as [Ha Hb]. apply cf_pmul; auto. apply cf_const. destruct Hb. split; simpl; assumption.
  - apply cf_ppow; auto.
  - destruct e; try (apply cf_const; assumption).
    destruct (String.eqb_spec s "phi_s"); [constructor; [apply Fn|constructor]|].
    destruct (String.eqb_spec s "theta_s"); [constructor; [apply Fn|constructor]|].
    apply cf_const. split; cbn [syms]; intros [X|[]]; congruence.
  - destruct e; try (apply cf_const; assumption).
    destruct (String.eqb_spec s "phi_s"); [constructor; [apply Fn|constructor]|].
    destruct (String.eqb_spec s "theta_s"); [constructor; [apply Fn|constructor]|].
    apply cf_const. split; cbn [syms]; intros [X|[]]; congruence.
Qed.
Lemma cf_expand_wd f e : wd f e -> cf (wd f) (expand e).
Proof.
  assert (Fn : forall q, wd f (ENum q)) by (intros; exact I). pose proof (wd_emul f) as Fm.
  induction e; cbn [wd expand]; intros H; try (apply cf_const; assumption).
  - destruct (Qeq_bool q 0); [constructor|apply cf_const, Fn].
  - destruct H. apply cf_app; auto.
  - destruct H. apply cf_pmul; auto.
  - destruct H as (Ha & Hb & Hn). apply cf_pmul; auto. apply cf_const. cbn [wd]. auto.
  - apply cf_ppow; auto.
  - destruct e; try (apply cf_const; assumption).
    destruct (String.eqb_spec s "phi_s"); [constructor; [apply Fn|constructor]|].
    destruct (String.eqb_spec s "theta_s"); [constructor; [apply Fn|constructor]|]. apply cf_const. exact I.
  - destruct e; try (apply cf_const; assumption).
    destruct (String.eqb_spec s "phi_s"); [constructor; [apply Fn|constructor]|].
    destruct (String.eqb_spec s "theta_s"); [constructor; [apply Fn|constructor]|]. apply cf_const. exact I.
Qed.
Lemma cf_expand_over S e : over S e -> cf (over S) (expand e).
Proof.
  pose proof (over_num S) as Fn. pose proof (over_emul S) as Fm.
  assert (I2 : forall a b c, (forall x y, syms (c x y) = syms x ++ syms y) -> over S (c a b) -> over S a /\ over S b).
  { intros a b c Hs H. split; intros s X; apply H; rewrite Hs; apply in_or_app; auto. }
  induction e; cbn [expand]; intros H; try (apply cf_const; assumption).
  - destruct (Qeq_bool q 0); [constructor|apply cf_const, Fn].
  - apply (I2 _ _ EAdd) in H; [|reflexivity]. destruct H. apply cf_app; auto.
  - apply (I2 _ _ EMul) in H; [|reflexivity]. destruct H. apply cf_pmul; auto.
  - apply (I2 _ _ EDiv) in H; [|reflexivity]. destruct H. apply cf_pmul; auto. apply cf_const. apply over_div; auto.
  - apply cf_ppow; auto.
  - destruct e; try (apply cf_const; assumption).
    destruct (String.eqb_spec s "phi_s"); [constructor; [apply Fn|constructor]|].
    destruct (String.eqb_spec s "theta_s"); [constructor; [apply Fn|constructor]|]. apply cf_const. exact H.
  - destruct e; try (apply cf_const; assumption).
    destruct (String.eqb_spec s "phi_s"); [constructor; [apply Fn|constructor]|].
    destruct (String.eqb_spec s "theta_s"); [constructor; [apply Fn|constructor]|]. apply cf_const. exact H.
Qed.
