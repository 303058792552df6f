(** Values, symbols and degrees of legendre_expansion (src/rt1_model/_scatter.py:107-147, 271-291). *)
From Verif Require Import SpecExp CosLobe.
From Verif Require Export FnPipe PhaseVal.
Open Scope string_scope.
Open Scope nat_scope.
Open Scope list_scope.

(** ** substitution of the summation index *)
Lemma subst_id x v e : ~ In x (syms e) -> subst x v e = e.
Proof.
  induction e; cbn [syms subst]; intros H; auto;
    try (rewrite IHe1, IHe2 by (intros X; apply H; apply in_or_app; auto); reflexivity);
    try (rewrite IHe by assumption; reflexivity).
  destruct (String.eqb_spec s x); [exfalso; apply H; simpl; auto|reflexivity].
Qed.
Definition a_syms (a : atrip) : list string := syms (a0 a) ++ syms (a1 a) ++ syms (a2 a).
(** the symbols of the parameters of a distribution function *)
Fixpoint scat_syms (s : scat) : list string :=
  match s with
  | VIso a | VRay a | SIso a | SCos _ _ a => a_syms a
  | VHG t _ a | VHGRay t _ a | SHG t _ a | SHGn t _ a => syms t ++ a_syms a
  | LinComb cs a => flat_map (fun c => syms (fst c) ++ scat_syms (snd c)) cs
  end.
Definition no_n (s : scat) : Prop := ~ In "n" (scat_syms s).
Lemma at_n_id k e : ~ In "n" (syms e) -> at_n k e = e. Proof. apply subst_id. Qed.
Lemma at_n_a_id k a : ~ In "n" (a_syms a) -> at_n_a k a = a.
Proof.
  intros H. unfold at_n_a. rewrite !at_n_id; [destruct a; reflexivity| | |]; intros X; apply H; unfold a_syms; apply in_or_app; auto;
    right; apply in_or_app; auto.
Qed.
Lemma scat_a_syms s : (forall c a, s <> LinComb c a) -> incl (a_syms (scat_a s)) (scat_syms s).
Proof. intros N. destruct s; cbn [scat_a scat_syms]; try apply incl_refl; try (apply incl_appr, incl_refl). destruct (N choices a); reflexivity. Qed.

(** ** values of the coefficients *)
Lemma ok_eq {A} (x y : A) : @Ok A x = Ok y -> y = x. Proof. congruence. Qed.
Ltac okinv E := apply ok_eq in E; subst.
Section CoefVal.
  Context (f : string -> R).
  Notation ev := (evalR f).
  Definition coef_value (s : scat) (k : nat) : R :=
    match s with
    | VIso _ => c_isotropic k
    | VRay _ => c_rayleigh k
    | VHG t _ _ => c_hg (ev t) k
    | VHGRay t _ _ => c_hgrayleigh (ev t) k
    | SIso _ => c_lambert k
    | SCos i _ _ => c_coslobe i k
    | SHG t _ _ => c_bhg (ev t) k
    | SHGn t _ a => c_bhgn (ev t) (ev (a0 a)) k
    | LinComb _ _ => 0%R
    end.
  Lemma ev_kron i k : ev (kron i k) = delta i k.
  Proof. unfold kron, delta. destruct (i =? k); [apply Q2R_1'|apply Q2R_0']. Qed.
  Lemma Q2R_qn k : Q2R (qn k) = INR k. Proof. unfold qn. now rewrite Q2R_Z, <- INR_IZR_INZ. Qed.
  Lemma odd_ne k : (2 * INR k - 1 <> 0)%R.
  Proof. intros H. rewrite INR_IZR_INZ, <- mult_IZR, <- minus_IZR in H. apply eq_IZR in H. lia. Qed.
  Ltac qq := rewrite ?Q2R_red; repeat first [rewrite Q2R_mult|rewrite Q2R_plus|rewrite Q2R_minus|rewrite Q2R_div']; rewrite ?Q2R_qn, ?Q2R_1', ?Q2R_lit.
  Lemma q1 k : Q2R (Qred (2 * qn k + 1)) = (2 * INR k + 1)%R. Proof. qq. lra. Qed.
  Lemma q2 k : Q2R (Qred ((qn k + 2) * (qn k + 1) / (2 * qn k + 3))) = ((INR k + 2) * (INR k + 1) / (2 * INR k + 3))%R.
  Proof.
    assert (D : Q2R (2 * qn k + 3) = (2 * INR k + 3)%R) by (qq; lra). pose proof (pos_INR k).
    rewrite Q2R_red, Q2R_div', D by (rewrite D; lra). qq. field. lra.
  Qed.
  Lemma q3 k : Q2R (Qred ((qn k + 1) * (qn k + 1) / (2 * qn k + 3))) = ((INR k + 1) ^ 2 / (2 * INR k + 3))%R.
  Proof.
    assert (D : Q2R (2 * qn k + 3) = (2 * INR k + 3)%R) by (qq; lra). pose proof (pos_INR k).
    rewrite Q2R_red, Q2R_div', D by (rewrite D; lra). qq. field. lra.
  Qed.
  Lemma q4 k : Q2R (Qred ((5 * qn k * qn k - 1) / (2 * qn k - 1))) = ((5 * INR k ^ 2 - 1) / (2 * INR k - 1))%R.
  Proof.
    assert (D : Q2R (2 * qn k - 1) = (2 * INR k - 1)%R) by (qq; lra). pose proof (odd_ne k).
    rewrite Q2R_red, Q2R_div', D by (rewrite D; lra). qq. field. lra.
  Qed.
  Lemma q5 k : Q2R (Qred (qn k * (qn k - 1) / (2 * qn k - 1))) = (INR k * (INR k - 1) / (2 * INR k - 1))%R.
  Proof.
    assert (D : Q2R (2 * qn k - 1) = (2 * INR k - 1)%R) by (qq; lra). pose proof (odd_ne k).
    rewrite Q2R_red, Q2R_div', D by (rewrite D; lra). qq. field. lra.
  Qed.
  Lemma ev_coef k s e : legendre_coefficient k s = Ok e -> no_n s -> ev e = coef_value s k.
  Proof.
    pose proof PI_RGT_0 as HPI. unfold no_n.
    destruct s; cbn [legendre_coefficient scat_syms coef_value]; intros E N.
    - okinv E. rewrite ev_emul, ev_kron. unfold c_isotropic, four_pi. cbn [evalR]. rewrite Q2R_1', Q2R_lit. f_equal. field. lra.
    - okinv E. rewrite ev_emul, ev_eadd, !ev_emul, !ev_kron. unfold c_rayleigh. cbn [evalR]. rewrite !Q2R_lit. field. lra.
    - assert (Nt : ~ In "n" (syms t)) by (intros X; apply N; apply in_or_app; auto). rewrite at_n_id in E by assumption.
      okinv E.
      rewrite !ev_emul, ev_epow. unfold c_hg, four_pi. cbn [evalR]. rewrite q1, Q2R_1', Q2R_lit. field. lra.
    - assert (Nt : ~ In "n" (syms t)) by (intros X; apply N; apply in_or_app; auto). rewrite at_n_id in E by assumption.
      okinv E.
      rewrite ev_emul, ev_ediv, ev_eadd, ev_epow. unfold c_hgrayleigh.
      assert (HC : ev (hgr_common t k) = ((INR k + 2) * (INR k + 1) / (2 * INR k + 3) * ev t ^ (k + 2)
        + (INR k + 1) ^ 2 / (2 * INR k + 3) * ev t ^ k + (5 * INR k ^ 2 - 1) / (2 * INR k - 1) * ev t ^ k)%R).
      { unfold hgr_common. rewrite !ev_eadd, !ev_emul, !ev_epow. cbn [evalR]. rewrite q2, q3, q4. reflexivity. }
      replace (ev (EDiv (ENum 3) (EMul (ENum 8) EPi))) with (3 / (8 * PI))%R by (cbn [evalR]; rewrite !Q2R_lit; field; lra).
      replace (ev (ENum 2)) with 2%R by (cbn [evalR]; rewrite Q2R_lit; field).
      f_equal. destruct (k <? 2).
      + rewrite HC. ring.
      + rewrite ev_eadd, ev_emul, ev_epow, HC. cbn [evalR]. rewrite q5. reflexivity.
    - okinv E. rewrite ev_emul, ev_kron. unfold c_lambert. cbn [evalR]. rewrite Q2R_1'. reflexivity.
    - destruct (coslobe_coef_val f k i nc a e E) as [A _]. rewrite A. reflexivity.
    - assert (Nt : ~ In "n" (syms t)) by (intros X; apply N; apply in_or_app; auto). rewrite at_n_id in E by assumption.
      okinv E.
      rewrite !ev_emul, ev_epow. unfold c_bhg. cbn [evalR]. rewrite q1, Q2R_1'. reflexivity.
    - assert (Nt : ~ In "n" (syms t)) by (intros X; apply N; apply in_or_app; auto).
      assert (Na : ~ In "n" (a_syms a)) by (intros X; apply N; apply in_or_app; auto).
      rewrite at_n_id, at_n_a_id in E by assumption.
      okinv E.
      rewrite !ev_emul, ev_epow, ev_ediv, ev_nadir. unfold c_bhgn, c_bhg. cbn [evalR]. rewrite q1, Q2R_1'. reflexivity.
    - discriminate E.
  Qed.
  (** where the coefficients are defined *)
  Definition ok_coef (s : scat) : Prop :=
    match s with
    | VHG t _ _ | VHGRay t _ _ | SHG t _ _ => wd f t
    | SHGn t _ a => ok_t f t /\ ok_a f a /\ ev t <> 0%R /\ ev (a0 a) <> 0%R
    | _ => True
    end.
  Lemma wd_kron i k : wd f (kron i k). Proof. unfold kron. destruct (i =? k); exact I. Qed.
  Lemma wd_coef k s e : legendre_coefficient k s = Ok e -> no_n s -> ok_coef s -> wd f e.
  Proof.
    pose proof PI_RGT_0 as HPI. unfold no_n.
    assert (W4 : wd f (EDiv (ENum 1) four_pi)) by (unfold four_pi; cbn [wd evalR]; rewrite Q2R_lit; repeat split; lra).
    assert (W1 : wd f (EDiv (ENum 1) EPi)) by (cbn [wd evalR]; repeat split; lra).
    assert (W3 : wd f (EDiv (ENum 3) (EMul (ENum 16) EPi))) by (cbn [wd evalR]; rewrite Q2R_lit; repeat split; lra).
    assert (W8 : wd f (EDiv (ENum 3) (EMul (ENum 8) EPi))) by (cbn [wd evalR]; rewrite Q2R_lit; repeat split; lra).
    assert (Q : forall q, wd f (ENum q)) by (intros; exact I).
    pose proof wd_kron as K.
    destruct s; cbn [legendre_coefficient scat_syms ok_coef]; intros E N O.
    - okinv E. apply wd_emul; auto.
    - okinv E. apply wd_emul; auto. apply wd_eadd; apply wd_emul; auto.
    - assert (Nt : ~ In "n" (syms t)) by (intros X; apply N; apply in_or_app; auto). rewrite at_n_id in E by assumption.
      okinv E.
      repeat apply wd_emul; auto. now apply wd_epow.
    - assert (Nt : ~ In "n" (syms t)) by (intros X; apply N; apply in_or_app; auto). rewrite at_n_id in E by assumption.
      okinv E.
      assert (C : wd f (hgr_common t k)) by (unfold hgr_common; repeat apply wd_eadd; apply wd_emul; auto; now apply wd_epow).
      apply wd_emul.
      + apply wd_ediv; auto; [apply wd_eadd; auto; now apply wd_epow|]. rewrite ev_eadd, ev_epow. cbn [evalR]. rewrite Q2R_lit. pose proof (pow2_ge_0 (ev t)). lra.
      + destruct (k <? 2); [exact C|]. apply wd_eadd; [|exact C]. apply wd_emul; auto. now apply wd_epow.
    - okinv E. apply wd_emul; auto.
    - exact (proj2 (coslobe_coef_val f k i nc a e E)).
    - assert (Nt : ~ In "n" (syms t)) by (intros X; apply N; apply in_or_app; auto). rewrite at_n_id in E by assumption.
      okinv E.
      repeat apply wd_emul; auto. now apply wd_epow.
    - assert (Nt : ~ In "n" (syms t)) by (intros X; apply N; apply in_or_app; auto).
      assert (Na : ~ In "n" (a_syms a)) by (intros X; apply N; apply in_or_app; auto).
      rewrite at_n_id, at_n_a_id in E by assumption.
      okinv E.
      destruct O as (Ot & Oa & Nt0 & Na0).
      apply wd_emul; [apply wd_ediv; auto|].
      + now apply wd_nadir.
      + rewrite ev_nadir. destruct Ot, Oa as (_ & ? & _). apply hg_nadir_ne; assumption.
      + repeat apply wd_emul; auto. apply wd_epow. apply Ot.
    - discriminate E.
  Qed.
End CoefVal.
