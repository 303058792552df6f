(** sympy.diff as modelled by [diff] is the derivative. *)
From Coquelicot Require Import Coquelicot.
From Coq Require Import Lia List.
From Verif Require Import SpecScat.
From Verif Require Export ExprFacts.
Open Scope string_scope.
Open Scope R_scope.

(** the assignment [f] with the symbol [k] set to [v] *)
Definition upd (f : string -> R) (k : string) (v : R) : string -> R := fun s => if String.eqb s k then v else f s.
(** every operation of [e] is defined and smooth at [f]: divisors are not 0, arguments of roots and
    logarithms are positive *)
Fixpoint smooth (f : string -> R) (e : expr) : Prop :=
  match e with
  | ENum _ | EPi | ESym _ => True
  | EAdd a b | EMul a b => smooth f a /\ smooth f b
  | EDiv a b => smooth f a /\ smooth f b /\ evalR f b <> 0
  | EPow a _ | ESin a | ECos a | EExp a | ESign a => smooth f a
  | EP32 a | ESqrt a | ELog a => smooth f a /\ 0 < evalR f a
  end.
Lemma smooth_wd f e : smooth f e -> wd f e.
Proof. induction e; cbn [smooth wd]; try tauto; intros [A B]; split; auto; lra. Qed.
Lemma upd_same f k s : upd f k (f k) s = f s.
Proof. unfold upd. destruct (String.eqb_spec s k); congruence. Qed.
Lemma evalR_upd_same f k e : evalR (upd f k (f k)) e = evalR f e.
Proof. apply Elem.evalR_ext. intros s _. apply upd_same. Qed.
Lemma evalR_upd_other f k v e : ~ In k (syms e) -> evalR (upd f k v) e = evalR f e.
Proof. intros N. apply Elem.evalR_ext. intros s Hs. unfold upd. destruct (String.eqb_spec s k); [congruence|reflexivity]. Qed.
Lemma mulD (f g : R -> R) u a b : is_derive f u a -> is_derive g u b -> is_derive (fun v => f v * g v) u (a * g u + f u * b).
Proof. intros F G. apply (is_derive_mult f g u a b F G). intros p q. apply Rmult_comm. Qed.
Lemma compD (f g : R -> R) u a b : is_derive f (g u) a -> is_derive g u b -> is_derive (fun v => f (g v)) u (b * a).
Proof. intros F G. apply (is_derive_comp f g u a b F G). Qed.
Lemma invD (g : R -> R) u b : g u <> 0 -> is_derive g u b -> is_derive (fun v => / g v) u (- b / g u ^ 2).
Proof. intros N G. now apply is_derive_inv. Qed.
Lemma sqrtD (g : R -> R) u b : 0 < g u -> is_derive g u b -> is_derive (fun v => sqrt (g v)) u (b * / (2 * sqrt (g u))).
Proof.
  intros N G. apply (compD sqrt); [|exact G]. apply is_derive_Reals. now apply derivable_pt_lim_sqrt.
Qed.
Lemma powD (g : R -> R) n u b : is_derive g u b -> is_derive (fun v => g v ^ n) u (INR n * b * g u ^ pred n).
Proof. intros G. now apply is_derive_pow. Qed.

Lemma some_inj {A} (a b : A) : Some a = Some b -> b = a.
Proof. congruence. Qed.
Theorem diff_derive k f e d : diff k e = Some d -> smooth f e ->
  is_derive (fun v => evalR (upd f k v) e) (f k) (evalR f d) /\ wd f d.
Proof.
  revert d. induction e as [q| |s|a IHa b IHb|a IHa b IHb|a IHa b IHb|a IHa n|a IHa|a IHa|a IHa|a IHa|a IHa|a IHa|a IHa]; intros d; cbn [diff smooth].
  - intros E _. apply some_inj in E; subst d. cbn [evalR wd]. rewrite Q2R_0'. split; [|exact I]. apply (is_derive_const (Q2R q)).
  - intros E _. apply some_inj in E; subst d. cbn [evalR wd]. rewrite Q2R_0'. split; [|exact I]. apply (is_derive_const PI).
  - intros E _. apply some_inj in E; subst d. cbn [evalR]. destruct (String.eqb_spec s k) as [->|N].
    + cbn [evalR wd]. rewrite Q2R_1'. split; [|exact I]. apply (is_derive_ext (fun v => v)); [intros v; unfold upd; now rewrite String.eqb_refl|]. apply (is_derive_id (f k)).
    + cbn [evalR wd]. rewrite Q2R_0'. split; [|exact I]. apply (is_derive_ext (fun _ => f s)); [intros v; unfold upd; destruct (String.eqb_spec s k); congruence|]. apply (is_derive_const (f s)).
  - unfold obind. destruct (diff k a) as [da|]; [|discriminate]. destruct (diff k b) as [db|]; [|discriminate].
    intros E [Sa Sb]. apply some_inj in E; subst d. destruct (IHa da eq_refl Sa) as [Da Wa]. destruct (IHb db eq_refl Sb) as [Db Wb].
    split; [|now apply wd_eadd]. rewrite ev_eadd. cbn [evalR]. apply (is_derive_plus _ _ _ _ _ Da Db).
  - unfold obind. destruct (diff k a) as [da|]; [|discriminate]. destruct (diff k b) as [db|]; [|discriminate].
    intros E [Sa Sb]. apply some_inj in E; subst d. destruct (IHa da eq_refl Sa) as [Da Wa]. destruct (IHb db eq_refl Sb) as [Db Wb].
    split; [|apply wd_eadd; apply wd_emul; auto using smooth_wd]. rewrite ev_eadd, !ev_emul. cbn [evalR].
    pose proof (mulD _ _ _ _ _ Da Db) as D. cbv beta in D. rewrite !evalR_upd_same in D. exact D.
  - unfold obind. destruct (diff k a) as [da|]; [|discriminate]. destruct (diff k b) as [db|]; [|discriminate].
    intros E (Sa & Sb & N). apply some_inj in E; subst d. destruct (IHa da eq_refl Sa) as [Da Wa]. destruct (IHb db eq_refl Sb) as [Db Wb].
    assert (N2 : evalR f b ^ 2 <> 0) by (now apply pow_nonzero).
    split.
    + rewrite ev_esub, !ev_emul. cbn [evalR]. rewrite Q2R_1'. unfold Rdiv.
      assert (Ib : is_derive (fun v => / evalR (upd f k v) b) (f k) (- evalR f db / evalR f b ^ 2)).
      { rewrite <- (evalR_upd_same f k b). apply invD; [now rewrite evalR_upd_same|exact Db]. }
      pose proof (mulD _ _ _ _ _ Da Ib) as D. cbv beta in D. rewrite !evalR_upd_same in D.
      replace (evalR f da * (1 * / evalR f b) - evalR f a * evalR f db * (1 * / evalR f b ^ 2)) with (evalR f da * / evalR f b + evalR f a * (- evalR f db / evalR f b ^ 2)); [exact D|].
      field. exact N.
    + apply wd_esub; repeat apply wd_emul; auto using smooth_wd; cbn [wd evalR]; auto using smooth_wd.
  - unfold obind. destruct (diff k a) as [da|]; [|discriminate]. intros E Sa. apply some_inj in E; subst d. destruct (IHa da eq_refl Sa) as [Da Wa].
    split; [|repeat apply wd_emul; auto using smooth_wd, wd_epow; exact I]. rewrite !ev_emul, ev_enum, ev_epow. cbn [evalR].
    pose proof (powD _ n _ _ Da) as D. cbv beta in D. rewrite !evalR_upd_same in D.
    replace (INR n * evalR f a ^ pred n * evalR f da) with (INR n * evalR f da * evalR f a ^ pred n) by ring. exact D.
  - unfold obind. destruct (diff k a) as [da|]; [|discriminate]. intros E [Sa P]. apply some_inj in E; subst d. destruct (IHa da eq_refl Sa) as [Da Wa].
    assert (P2 : 0 < sqrt (evalR f a)) by now apply sqrt_lt_R0.
    split; [|repeat apply wd_emul; auto using smooth_wd; cbn [wd]; auto using smooth_wd, Rlt_le]. rewrite !ev_emul. cbn [evalR].
    assert (Ds : is_derive (fun v => sqrt (evalR (upd f k v) a)) (f k) (evalR f da * / (2 * sqrt (evalR f a)))).
    { rewrite <- (evalR_upd_same f k a). apply sqrtD; [now rewrite evalR_upd_same|exact Da]. }
    pose proof (mulD _ _ _ _ _ Da Ds) as D. cbv beta in D. rewrite !evalR_upd_same in D.
    replace (Q2R (3 # 2) * sqrt (evalR f a) * evalR f da) with (evalR f da * sqrt (evalR f a) + evalR f a * (evalR f da * / (2 * sqrt (evalR f a)))); [exact D|].
    rewrite <- (sqrt_sqrt (evalR f a)) at 2 by lra. unfold Q2R. cbn. field. lra.
  - unfold obind. destruct (diff k a) as [da|]; [|discriminate]. intros E [Sa P]. apply some_inj in E; subst d. destruct (IHa da eq_refl Sa) as [Da Wa].
    assert (P2 : 0 < sqrt (evalR f a)) by now apply sqrt_lt_R0.
    split; [|apply wd_emul; auto; cbn [wd evalR]; repeat split; auto using smooth_wd; lra]. rewrite !ev_emul. cbn [evalR].
    replace (evalR f da * (Q2R (1 # 2) / sqrt (evalR f a))) with (evalR f da * / (2 * sqrt (evalR f a))) by (unfold Q2R; cbn; field; lra).
    rewrite <- (evalR_upd_same f k a). apply sqrtD; [now rewrite evalR_upd_same|exact Da].
  - unfold obind. destruct (diff k a) as [da|]; [|discriminate]. intros E Sa. apply some_inj in E; subst d. destruct (IHa da eq_refl Sa) as [Da Wa].
    split; [|apply wd_emul; auto; cbn [wd]; auto using smooth_wd]. rewrite !ev_emul. cbn [evalR]. rewrite Rmult_comm.
    apply (compD sin); [|exact Da]. rewrite evalR_upd_same. apply is_derive_sin.
  - unfold obind. destruct (diff k a) as [da|]; [|discriminate]. intros E Sa. apply some_inj in E; subst d. destruct (IHa da eq_refl Sa) as [Da Wa].
    split; [|repeat apply wd_emul; auto; cbn [wd]; auto using smooth_wd]. rewrite !ev_emul. cbn [evalR]. rewrite Rmult_comm.
    replace (Q2R (-1) * sin (evalR f a)) with (- sin (evalR f a)) by (unfold Q2R; cbn; lra).
    apply (compD cos); [|exact Da]. rewrite evalR_upd_same. apply is_derive_cos.
  - unfold obind. destruct (diff k a) as [da|]; [|discriminate]. intros E Sa. apply some_inj in E; subst d. destruct (IHa da eq_refl Sa) as [Da Wa].
    split; [|apply wd_emul; auto; cbn [wd]; auto using smooth_wd]. rewrite !ev_emul. cbn [evalR]. rewrite Rmult_comm.
    apply (compD exp); [|exact Da]. rewrite evalR_upd_same. apply is_derive_exp.
  - unfold obind. destruct (diff k a) as [da|]; [|discriminate]. intros E [Sa P]. apply some_inj in E; subst d. destruct (IHa da eq_refl Sa) as [Da Wa].
    split; [|apply wd_emul; auto; cbn [wd]; repeat split; auto using smooth_wd; lra]. rewrite !ev_emul. cbn [evalR]. rewrite Q2R_1'.
    replace (evalR f da * (1 / evalR f a)) with (evalR f da * / evalR f a) by (field; lra).
    apply (compD ln); [|exact Da]. rewrite evalR_upd_same. now apply is_derive_ln.
  - destruct (mem k (syms a)) eqn:M; [discriminate|]. intros E Sa. apply some_inj in E; subst d. cbn [evalR wd]. rewrite Q2R_0'. split; [|exact I].
    assert (N : ~ In k (syms a)) by (intros H; apply mem_In in H; congruence).
    apply (is_derive_ext (fun _ => IZR (rsign (evalR f a)))); [intros v; now rewrite evalR_upd_other|]. apply (is_derive_const (IZR (rsign (evalR f a)))).
Qed.

(** the smart constructors *)
Section Smooth.
  Context (f : string -> R).
  Ltac qb := repeat match goal with |- context [Qeq_bool ?p ?q] => destruct (Qeq_bool p q) eqn:?; cbn [evalR smooth] end.
  Lemma smooth_eadd a b : smooth f a -> smooth f b -> smooth f (eadd a b).
  Proof. intros Ha Hb. destruct a, b; simpl in *; qb; auto; tauto. Qed.
  Lemma smooth_emul a b : smooth f a -> smooth f b -> smooth f (emul a b).
  Proof. intros Ha Hb. destruct a, b; simpl in *; qb; auto; tauto. Qed.
  Lemma smooth_epow a n : smooth f a -> smooth f (epow a n).
  Proof. intros Ha. destruct n as [|[|n]]; simpl; auto. destruct a; simpl in *; auto. Qed.
  Lemma smooth_ediv a b : smooth f a -> smooth f b -> evalR f b <> 0%R -> smooth f (ediv a b).
  Proof. intros Ha Hb Hn. destruct a, b; simpl in *; qb; auto; try tauto. Qed.
  Lemma smooth_esin a : smooth f a -> smooth f (esin a).
  Proof. intros Ha. destruct a; simpl in *; qb; auto. Qed.
  Lemma smooth_ecos a : smooth f a -> smooth f (ecos a).
  Proof. intros Ha. destruct a; simpl in *; qb; auto. Qed.
  Lemma smooth_esub a b : smooth f a -> smooth f b -> smooth f (esub a b).
  Proof. intros. unfold esub. apply smooth_eadd; [assumption|]. apply smooth_emul; simpl; auto. Qed.
  Lemma smooth_angle t0 tex p0 pex a : smooth f (a0 a) -> smooth f (a1 a) -> smooth f (a2 a) -> smooth f t0 -> smooth f tex -> smooth f p0 -> smooth f pex ->
    smooth f (calc_scattering_angle t0 tex p0 pex a).
  Proof.
    intros H0 H1 H2 A B C D. unfold calc_scattering_angle.
    repeat first [apply smooth_eadd|apply smooth_emul|apply smooth_esin|apply smooth_ecos|assumption].
  Qed.
End Smooth.
