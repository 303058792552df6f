(** Values of the expressions built by the symbolic code. *)
From Verif Require Export Elem SpecScat.
From Coq Require Import FunctionalExtensionality.
Open Scope nat_scope.

Lemma Q2R_red q : Q2R (Qred q) = Q2R q. Proof. apply Qeq_eqR, Qred_correct. Qed.
Lemma Qeq_bool_R p q : Qeq_bool p q = true -> Q2R p = Q2R q. Proof. intros H. apply Qeq_eqR. now apply Qeq_bool_iff. Qed.
Lemma Q2R_0' : Q2R 0 = 0%R. Proof. unfold Q2R. simpl. lra. Qed.
Lemma Q2R_1' : Q2R 1 = 1%R. Proof. unfold Q2R. simpl. lra. Qed.
Lemma Q2R_Z z : Q2R (inject_Z z) = IZR z. Proof. unfold Q2R. simpl. lra. Qed.
Lemma Q2R_div' p q : Q2R q <> 0%R -> Q2R (p / q) = (Q2R p / Q2R q)%R.
Proof. intros H. apply Q2R_div. intros E. apply H. rewrite (Qeq_eqR _ _ E). apply Q2R_0'. Qed.
Ltac q2r := repeat rewrite ?Q2R_red, ?Q2R_plus, ?Q2R_mult, ?Q2R_opp, ?Q2R_minus, ?Q2R_Z, ?Q2R_0', ?Q2R_1'.
Lemma Q2R_lit z p : Q2R (z # p) = (IZR z / IZR (Zpos p))%R. Proof. reflexivity. Qed.

Section Val.
  Context (f : string -> R).
  Notation ev := (evalR f).
  Ltac qb := repeat match goal with |- context [Qeq_bool ?p ?q] => destruct (Qeq_bool p q) eqn:?; cbn [evalR wd] end;
    repeat match goal with H : Qeq_bool _ _ = true |- _ => apply Qeq_bool_R in H end.
  Lemma ev_eadd a b : ev (eadd a b) = (ev a + ev b)%R.
  Proof. destruct a, b; cbn [eadd emul evalR]; qb; q2r; rewrite ?Q2R_0', ?Q2R_1' in *; try lra. Qed.
  Lemma ev_emul a b : ev (emul a b) = (ev a * ev b)%R.
  Proof. destruct a, b; cbn [eadd emul evalR]; qb; q2r; rewrite ?Q2R_0', ?Q2R_1' in *; try (repeat match goal with H : Q2R _ = _ |- _ => rewrite H end); try ring. Qed.
  Lemma Q2R_qpow q n : Q2R (qpow q n) = (Q2R q ^ n)%R.
  Proof. induction n as [|n IH]; [apply Q2R_1'|]. cbn [qpow pow]. q2r. now rewrite IH. Qed.
  Lemma ev_epow a n : ev (epow a n) = (ev a ^ n)%R.
  Proof.
    unfold epow. destruct n as [|[|n]]; [simpl; apply Q2R_1'|simpl; ring|]. destruct a; try reflexivity.
    cbn [evalR]. apply Q2R_qpow.
  Qed.
  Lemma ev_ediv a b : ev (ediv a b) = (ev a / ev b)%R.
  Proof.
    destruct a, b; cbn [ediv evalR]; try reflexivity; qb; try reflexivity; rewrite ?Q2R_0', ?Q2R_1' in *;
      try (repeat match goal with H : Q2R _ = _ |- _ => rewrite H end; unfold Rdiv; ring);
      try (match goal with H : Q2R _ = _ |- _ => rewrite H end; unfold Rdiv; rewrite Rinv_1; ring).
    q2r. apply Q2R_div'. intros E. assert (X : q0 == 0) by (apply eqR_Qeq; rewrite E; symmetry; apply Q2R_0').
    apply Qeq_bool_iff in X. congruence.
  Qed.
  Lemma ev_esin a : ev (esin a) = sin (ev a).
  Proof. destruct a; simpl; qb; try reflexivity. rewrite Heqb, Q2R_0'. now rewrite sin_0. Qed.
  Lemma ev_ecos a : ev (ecos a) = cos (ev a).
  Proof. destruct a; simpl; qb; try reflexivity. rewrite Heqb, Q2R_0', Q2R_1'. now rewrite cos_0. Qed.
  Lemma ev_esub a b : ev (esub a b) = (ev a - ev b)%R.
  Proof. unfold esub. rewrite ev_eadd, ev_emul. simpl. rewrite Q2R_lit. lra. Qed.
  Lemma ev_enum n : ev (enum_nat n) = INR n.
  Proof. simpl. rewrite Q2R_Z, <- INR_IZR_INZ. reflexivity. Qed.
  Lemma ev_esum l : ev (esum l) = fold_right Rplus 0%R (map ev l).
  Proof. induction l as [|e l IH]; simpl; [apply Q2R_0'|]. now rewrite ev_eadd, IH. Qed.

  (** well-definedness *)
  Lemma wd_eadd a b : wd f a -> wd f b -> wd f (eadd a b).
  Proof. intros Ha Hb. destruct a, b; simpl in *; qb; auto; tauto. Qed.
  Lemma wd_emul a b : wd f a -> wd f b -> wd f (emul a b).
  Proof. intros Ha Hb. destruct a, b; simpl in *; qb; auto; tauto. Qed.
  Lemma wd_epow a n : wd f a -> wd f (epow a n).
  Proof. intros Ha. destruct n as [|[|n]]; simpl; auto. destruct a; simpl in *; auto. Qed.
  Lemma wd_ediv a b : wd f a -> wd f b -> ev b <> 0%R -> wd f (ediv a b).
  Proof. intros Ha Hb Hn. destruct a, b; simpl in *; qb; auto; try tauto. Qed.
  Lemma wd_esin a : wd f a -> wd f (esin a).
  Proof. intros Ha. destruct a; simpl in *; qb; auto. Qed.
  Lemma wd_ecos a : wd f a -> wd f (ecos a).
  Proof. intros Ha. destruct a; simpl in *; qb; auto. Qed.
  Lemma wd_esub a b : wd f a -> wd f b -> wd f (esub a b).
  Proof. intros. unfold esub. apply wd_eadd; [assumption|]. apply wd_emul; simpl; auto. Qed.
  Lemma wd_esum l : (forall e, In e l -> wd f e) -> wd f (esum l).
  Proof. induction l as [|e l IH]; simpl; intros H; [exact I|]. apply wd_eadd; auto. Qed.

  (** scattering angle *)
  Definition ev_a (a : atrip) : gen := mk_gen (ev (a0 a)) (ev (a1 a)) (ev (a2 a)).
  Lemma ev_angle t0 tex p0 pex a :
    ev (calc_scattering_angle t0 tex p0 pex a) = cos_angle (ev_a a) (ev t0) (ev tex) (ev p0) (ev pex).
  Proof.
    unfold calc_scattering_angle, cos_angle, ev_a. simpl. rewrite !ev_eadd, !ev_emul, !ev_ecos, !ev_esin. ring.
  Qed.
  Definition wd_a (a : atrip) : Prop := wd f (a0 a) /\ wd f (a1 a) /\ wd f (a2 a).
  Lemma wd_angle t0 tex p0 pex a : wd_a a -> wd f t0 -> wd f tex -> wd f p0 -> wd f pex ->
    wd f (calc_scattering_angle t0 tex p0 pex a).
  Proof.
    intros (H0 & H1 & H2) A B C D. unfold calc_scattering_angle.
    repeat first [apply wd_eadd|apply wd_emul|apply wd_esin|apply wd_ecos|assumption].
  Qed.

  (** Legendre polynomials *)
  Fixpoint pev (cs : list Q) (x : R) (j : nat) : R :=
    match cs with [] => 0%R | c :: cs' => (Q2R c * x ^ j + pev cs' x (S j))%R end.
  Lemma ev_poly_in cs x j : ev (poly_in cs x j) = pev cs (ev x) j.
  Proof. revert j. induction cs as [|c cs IH]; intros j; [apply Q2R_0'|]. cbn [poly_in pev]. rewrite ev_eadd, ev_emul, ev_epow, IH. reflexivity. Qed.
  Lemma pev_S cs x j : pev cs x (S j) = (x * pev cs x j)%R.
  Proof. revert j. induction cs as [|c cs IH]; intros j; simpl; [ring|]. rewrite (IH (S j)). simpl. ring. Qed.
  Lemma pev_scale c cs x j : pev (qlscale c cs) x j = (Q2R c * pev cs x j)%R.
  Proof. revert j. induction cs as [|d cs IH]; intros j; [simpl; ring|]. unfold qlscale in *. cbn [map pev]. rewrite IH. q2r. ring. Qed.
  Lemma pev_add a b x j : pev (qladd a b) x j = (pev a x j + pev b x j)%R.
  Proof.
    revert b j. induction a as [|c a IH]; intros [|d b] j; cbn [qladd pev]; try ring. rewrite IH. q2r. ring.
  Qed.
  Lemma leg_coefs2_legP n x : pev (fst (leg_coefs2 n)) x 0 = legP n x /\ pev (snd (leg_coefs2 n)) x 0 = legP (S n) x.
  Proof.
    induction n as [|n [IH1 IH2]].
    - simpl. rewrite Q2R_1', Q2R_0'. rewrite legP_0, legP_1. split; ring.
    - rewrite legP_SS. cbn [leg_coefs2]. destruct (leg_coefs2 n) as [a b]. cbn [fst snd] in *. split; [exact IH2|].
      rewrite pev_add, !pev_scale. change (pev (0%Q :: b) x 0) with (Q2R 0 * 1 + pev b x 1)%R.
      rewrite pev_S, IH1, IH2.
      assert (E : (Q2R (inject_Z (Z.of_nat n) + 2) = INR n + 2)%R) by (q2r; rewrite <- INR_IZR_INZ, Q2R_lit; lra).
      assert (N : (INR n + 2 <> 0)%R) by (pose proof (pos_INR n); lra).
      rewrite !Q2R_div' by (rewrite E; assumption). rewrite E. q2r. rewrite <- INR_IZR_INZ. rewrite !Q2R_lit. field. assumption.
  Qed.
  Lemma ev_legendre k x : ev (sp_legendre k x) = legP k (ev x).
  Proof. unfold sp_legendre. rewrite ev_poly_in. apply leg_coefs2_legP. Qed.
  Lemma wd_poly_in cs x j : wd f x -> wd f (poly_in cs x j).
  Proof.
    intros Hx. revert j. induction cs as [|c cs IH]; intros j; [exact I|]. cbn [poly_in].
    apply wd_eadd; [|apply IH]. apply wd_emul; [exact I|]. now apply wd_epow.
  Qed.
  Lemma wd_legendre k x : wd f x -> wd f (sp_legendre k x).
  Proof. apply wd_poly_in. Qed.
End Val.
