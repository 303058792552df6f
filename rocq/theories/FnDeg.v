(** Degrees and symbols of the two expansions entering the interaction term. *)
From Verif Require Import SpecExp.
From Verif Require Export FnExp3.
Open Scope string_scope.
Open Scope nat_scope.
Open Scope list_scope.

Lemma D_cast e d e' d' p : D e d p -> e = e' -> d <= d' -> D e' d' p.
Proof. intros H <- L. now apply (D_le e d d'). Qed.
Lemma free_okx2 (c : expr -> expr -> expr) : forall a b, okx a -> okx b -> okx a. Proof. auto. Qed.
Lemma okx_num q : okx (ENum q). Proof. exact I. Qed.
Lemma okx_eadd a b : okx a -> okx b -> okx (eadd a b).
Proof.
  intros Ha Hb. unfold eadd. destruct a; destruct b; try (split; assumption); try exact I;
    try (destruct (Qeq_bool _ 0)); auto; split; auto.
Qed.
Lemma okx_emul a b : okx a -> okx b -> okx (emul a b).
Proof.
  intros Ha Hb. unfold emul. destruct a; destruct b; try (split; assumption); try exact I;
    try (destruct (Qeq_bool _ 0); [exact I|]; destruct (Qeq_bool _ 1)); auto; split; auto.
Qed.
Lemma okx_epow a n : okx a -> okx (epow a n).
Proof. intros Ha. unfold epow. destruct n as [|[|n]]; [exact I|assumption|]. destruct a; auto. Qed.

(** ** Legendre polynomials of an expression *)
Lemma qladd_len a : forall b, length (qladd a b) = Nat.max (length a) (length b).
Proof. induction a as [|x a IH]; intros [|y b]; cbn [qladd List.length]; auto. rewrite IH. lia. Qed.
Lemma leg_len n : length (fst (leg_coefs2 n)) = S n /\ length (snd (leg_coefs2 n)) = S (S n).
Proof.
  induction n as [|n [A B]]; [split; reflexivity|]. cbn [leg_coefs2]. destruct (leg_coefs2 n) as [a b]. cbn [fst snd] in *. split; [assumption|].
  rewrite qladd_len. unfold qlscale. rewrite !map_length. cbn [List.length]. lia.
Qed.
Lemma D_poly_in x k : D 0 1 (expand x) -> forall cs j, j + length cs <= S k -> D 0 k (expand (poly_in cs x j)).
Proof.
  intros Hx. induction cs as [|c cs IH]; intros j Hj; [constructor|]. cbn [poly_in List.length] in *. apply D_eadd; [|apply IH; lia].
  eapply D_cast; [apply D_emul; [apply D_num|apply (D_epow 1), Hx]| |]; lia.
Qed.
Lemma D_legendre x k : D 0 1 (expand x) -> D 0 k (expand (sp_legendre k x)).
Proof. intros Hx. apply D_poly_in; [assumption|]. unfold leg_coefs. rewrite (proj1 (leg_len k)). lia. Qed.
Lemma okx_poly_in x : okx x -> forall cs j, okx (poly_in cs x j).
Proof. intros Hx. induction cs as [|c cs IH]; intros j; [exact I|]. cbn [poly_in]. apply okx_eadd; [|apply IH]. apply okx_emul; [exact I|]. now apply okx_epow. Qed.
Lemma okx_legendre x k : okx x -> okx (sp_legendre k x). Proof. intros. now apply okx_poly_in. Qed.
Lemma over_poly_in S x : over S x -> forall cs j, over S (poly_in cs x j).
Proof. intros Hx. induction cs as [|c cs IH]; intros j; [apply over_num|]. cbn [poly_in]. apply over_eadd; [|apply IH]. apply over_emul; [apply over_num|]. now apply over_epow. Qed.
Lemma over_legendre S x k : over S x -> over S (sp_legendre k x). Proof. intros. now apply over_poly_in. Qed.

(** ** the scattering angle with (theta_s, phi_s) as one of the two directions *)
Definition free_a (a : atrip) : Prop := free (a0 a) /\ free (a1 a) /\ free (a2 a).
Lemma free_ecos e : free e -> free (ecos e). Proof. rewrite !free_over. apply over_ecos. Qed.
Lemma free_esin e : free e -> free (esin e). Proof. rewrite !free_over. apply over_esin. Qed.
Lemma D_ct : D 0 1 (expand (ecos (ESym "theta_s"))). Proof. repeat constructor. Qed.
Lemma D_st : D 1 1 (expand (esin (ESym "theta_s"))). Proof. repeat constructor. Qed.
Lemma D_cp : D (-1) 0 (expand (ecos (ESym "phi_s"))). Proof. repeat constructor. Qed.
Lemma D_sp : D (-1) 0 (expand (esin (ESym "phi_s"))). Proof. repeat constructor. Qed.
Definition dir_in (t0 tex p0 pex : expr) : Prop :=
  (t0 = ESym "theta_s" /\ p0 = ESym "phi_s" /\ free tex /\ free pex) \/
  (tex = ESym "theta_s" /\ pex = ESym "phi_s" /\ free t0 /\ free p0).
Lemma D_angle t0 tex p0 pex a : dir_in t0 tex p0 pex -> free_a a -> D 0 1 (expand (calc_scattering_angle t0 tex p0 pex a)).
Proof.
  intros Dr (F0 & F1 & F2). unfold calc_scattering_angle.
  assert (Fc : forall e, free e -> D 0 0 (expand (ecos e))) by (intros; apply D_free, free_ecos; assumption).
  assert (Fs : forall e, free e -> D 0 0 (expand (esin e))) by (intros; apply D_free, free_esin; assumption).
  pose proof (D_free _ F0) as G0. pose proof (D_free _ F1) as G1. pose proof (D_free _ F2) as G2.
  destruct Dr as [(-> & -> & T & P)|(-> & -> & T & P)]; pose proof (Fc _ T) as CT; pose proof (Fs _ T) as ST; pose proof (Fc _ P) as CP; pose proof (Fs _ P) as SP;
    pose proof D_ct as K1; pose proof D_st as K2; pose proof D_cp as K3; pose proof D_sp as K4; apply D_eadd; [apply D_eadd| |apply D_eadd|].
  - eapply D_cast; [eapply D_emul; [eapply D_emul; eassumption|eassumption]| |]; lia.
  - eapply D_cast; [eapply D_emul; [eapply D_emul; [eapply D_emul; [eapply D_emul; eassumption|eassumption]|eassumption]|eassumption]| |]; lia.
  - eapply D_cast; [eapply D_emul; [eapply D_emul; [eapply D_emul; [eapply D_emul; eassumption|eassumption]|eassumption]|eassumption]| |]; lia.
  - eapply D_cast; [eapply D_emul; [eapply D_emul; eassumption|eassumption]| |]; lia.
  - eapply D_cast; [eapply D_emul; [eapply D_emul; [eapply D_emul; [eapply D_emul; eassumption|eassumption]|eassumption]|eassumption]| |]; lia.
  - eapply D_cast; [eapply D_emul; [eapply D_emul; [eapply D_emul; [eapply D_emul; eassumption|eassumption]|eassumption]|eassumption]| |]; lia.
Qed.
Lemma okx_angle t0 tex p0 pex a : dir_in t0 tex p0 pex -> free_a a -> okx (calc_scattering_angle t0 tex p0 pex a).
Proof.
  intros Dr (F0 & F1 & F2). unfold calc_scattering_angle.
  assert (Fc : forall e, free e -> okx (ecos e)) by (intros; apply okx_free, free_ecos; assumption).
  assert (Fs : forall e, free e -> okx (esin e)) by (intros; apply okx_free, free_esin; assumption).
  assert (Sc : forall s, okx (ecos (ESym s))) by (intros; exact I). assert (Ss : forall s, okx (esin (ESym s))) by (intros; exact I).
  apply okx_free in F0, F1, F2.
  destruct Dr as [(-> & -> & T & P)|(-> & -> & T & P)]; repeat apply okx_eadd; repeat apply okx_emul; auto.
Qed.
Lemma over_angle S t0 tex p0 pex a : over S t0 -> over S tex -> over S p0 -> over S pex -> over S (a0 a) -> over S (a1 a) -> over S (a2 a) ->
  over S (calc_scattering_angle t0 tex p0 pex a).
Proof.
  intros. unfold calc_scattering_angle. repeat apply over_eadd; repeat apply over_emul; auto using over_ecos, over_esin.
Qed.

(** ** symbols of the coefficients *)
Definition sub_syms (S : string -> Prop) (s : scat) : Prop := forall x, In x (scat_syms s) -> x <> "n" -> S x.
Lemma over_at_n (S : string -> Prop) k e : (forall x, In x (syms e) -> x <> "n" -> S x) -> over S (at_n k e).
Proof. intros H. apply over_subst; [assumption|]. apply over_num. Qed.
Lemma over_at_n_a (S : string -> Prop) k a : (forall x, In x (a_syms a) -> x <> "n" -> S x) ->
  over S (a0 (at_n_a k a)) /\ over S (a1 (at_n_a k a)) /\ over S (a2 (at_n_a k a)).
Proof.
  intros H. cbn [at_n_a a0 a1 a2]. repeat split; apply over_at_n; intros x Hx; apply H; unfold a_syms; apply in_or_app; auto; right; apply in_or_app; auto.
Qed.
Lemma over_kron S i k : over S (kron i k). Proof. unfold kron. destruct (i =? k); apply over_num. Qed.
Lemma over_nadir S t a : over S t -> over S (a0 a) -> over S (nadir_hemreflect t a).
Proof.
  intros Ht Ha. unfold nadir_hemreflect.
  repeat first [assumption|apply over_num|apply over_emul|apply over_ediv|apply over_esub|apply over_eadd|apply over_epow|apply over_sqrt].
Qed.
Lemma over_gamma S m e : gamma_half m = Some e -> over S e.
Proof.
  unfold gamma_half. destruct (Z.even m); [destruct (m <=? 0)%Z|destruct (0 <? m)%Z]; intros H; inversion H; intros x; cbn [syms]; intros X; repeat (apply in_app_or in X; destruct X as [X|X]); try destruct X.
Qed.
Lemma over_coef (S : string -> Prop) k s e : sub_syms S s -> legendre_coefficient k s = Ok e -> over S e.
Proof.
  intros H E. unfold sub_syms in H.
  destruct s; cbn [legendre_coefficient scat_syms] in *; try discriminate E;
    try (assert (Ht : over S (at_n k t)) by (apply over_at_n; intros x Hx; apply H; apply in_or_app; auto)).
  - okinv E. apply over_emul; [intros x []|apply over_kron].
  - okinv E. apply over_emul; [intros x []|]. apply over_eadd; apply over_emul; auto using over_num, over_kron.
  - okinv E. repeat apply over_emul; auto using over_num, over_epow. intros x [].
  - okinv E.
    assert (C : over S (hgr_common (at_n k t) k)) by (unfold hgr_common; repeat apply over_eadd; apply over_emul; auto using over_num, over_epow).
    apply over_emul; [apply over_ediv; [intros x []|apply over_eadd; auto using over_num, over_epow]|].
    destruct (k <? 2); [exact C|]. apply over_eadd; [|exact C]. apply over_emul; auto using over_num, over_epow.
  - okinv E. apply over_emul; [intros x []|apply over_kron].
  - remember (Qred (1 / (4 * qpow 2 i) * (1 + 2 * qn k) * qfact i)) as Qn eqn:EQ. clear EQ.
    destruct (gamma_half (2 - Z.of_nat k + Z.of_nat i)) as [g1|] eqn:G1; [destruct (gamma_half (3 + Z.of_nat k + Z.of_nat i)) as [g2|] eqn:G2|].
    + okinv E. apply over_mul; [intros x []|]. apply over_div; [intros x []|]. apply over_mul; eapply over_gamma; eassumption.
    + okinv E. apply over_num.
    + okinv E. destruct (gamma_half (3 + Z.of_nat k + Z.of_nat i)); apply over_num.
  - okinv E. repeat apply over_emul; auto using over_num, over_epow. intros x [].
  - okinv E.
    destruct (over_at_n_a S k a) as (A0 & _); [intros x Hx; apply H; apply in_or_app; auto|].
    apply over_emul; [apply over_ediv; [apply over_num|now apply over_nadir]|]. repeat apply over_emul; auto using over_num, over_epow. intros x [].
Qed.
Lemma sub_member S s m : sub_syms S s -> In m (members s) -> sub_syms S m.
Proof.
  intros H Hm. destruct s; cbn [members] in Hm; try (destruct Hm as [<-|[]]; assumption).
  apply in_map_iff in Hm. destruct Hm as (c & <- & Hc). intros x Hx. apply H. cbn [scat_syms]. apply in_flat_map. exists c. split; [assumption|apply in_or_app; auto].
Qed.
Lemma sub_weight S s w k : sub_syms S s -> In w (weights s) -> over S (at_n k w).
Proof.
  intros H Hm. destruct s; cbn [weights] in Hm; try destruct Hm.
  apply in_map_iff in Hm. destruct Hm as (c & <- & Hc). apply over_at_n. intros x Hx. apply H. cbn [scat_syms]. apply in_flat_map. exists c. split; [assumption|apply in_or_app; auto].
Qed.

(** ** the expansions *)
Definition fsym : string -> Prop := fun s => s <> "theta_s" /\ s <> "phi_s".
Definition free_scat (s : scat) : Prop := sub_syms fsym s.
Lemma free_iff e : free e <-> over fsym e. Proof. apply free_over. Qed.
Section Two.
  Context (t0 tex p0 pex : expr) (Dr : dir_in t0 tex p0 pex).
  Lemma exp_shape s N e : free_scat s -> legendre_expansion t0 tex p0 pex s = Ok e -> ncoefs s = Ok N ->
    D 0 (N - 1) (expand e) /\ okx e.
  Proof.
    intros F H HN.
    refine (expansion_ind t0 tex p0 pex (fun e => D 0 (N - 1) (expand e) /\ okx e) free free_a s N e _ _ _ _ _ _ _ _ H HN).
    - split; [constructor|exact I].
    - intros a b [A1 A2] [B1 B2]. split; [now apply D_eadd|now apply okx_eadd].
    - apply free_iff, over_num.
    - intros a b. rewrite !free_iff. apply over_eadd.
    - intros a b. rewrite !free_iff. apply over_emul.
    - intros m Hm B. pose proof (sub_member _ _ _ F Hm) as Fm. split.
      + intros k c Hc. apply free_iff. eapply over_coef; eassumption.
      + intros k. destruct (over_at_n_a fsym k (scat_a m)) as (X & Y & Z).
        * intros x Hx. apply Fm. now apply (scat_a_syms _ B).
        * repeat split; apply free_iff; assumption.
    - intros w k Hw. apply free_iff. now apply (sub_weight _ s).
    - intros k c a Hk Fc Fa. pose proof (D_angle _ _ _ _ _ Dr Fa) as X. pose proof (okx_angle _ _ _ _ _ Dr Fa) as Y. split.
      + eapply D_cast; [apply D_emul; [now apply D_free|now apply D_legendre]| |]; lia.
      + apply okx_emul; [now apply okx_free|now apply okx_legendre].
  Qed.
End Two.
Lemma exp_over S t0 tex p0 pex s N e : over S t0 -> over S tex -> over S p0 -> over S pex -> sub_syms S s ->
  legendre_expansion t0 tex p0 pex s = Ok e -> ncoefs s = Ok N -> over S e.
Proof.
  intros O1 O2 O3 O4 F H HN.
  refine (expansion_ind t0 tex p0 pex (over S) (over S) (fun a => over S (a0 a) /\ over S (a1 a) /\ over S (a2 a)) s N e _ _ _ _ _ _ _ _ H HN);
    auto using over_num, over_eadd, over_emul.
  - intros m Hm B. pose proof (sub_member _ _ _ F Hm) as Fm. split.
    + intros k c Hc. eapply over_coef; eassumption.
    + intros k. apply over_at_n_a. intros x Hx. apply Fm. now apply (scat_a_syms _ B).
  - intros w k Hw. now apply (sub_weight _ s).
  - intros k c a Hk Fc (A0 & A1 & A2). apply over_emul; [assumption|]. apply over_legendre. now apply over_angle.
Qed.
(** parameters for which the coefficients are numbers *)
Definition ok_exp (f : string -> R) (s : scat) : Prop :=
  Forall (fun m => ok_coef f m /\ wd_a f (scat_a m)) (members s) /\ Forall (wd f) (weights s).
Lemma no_n_member s m : no_n s -> In m (members s) -> no_n m.
Proof.
  intros H Hm. destruct s; cbn [members] in Hm; try (destruct Hm as [<-|[]]; assumption).
  apply in_map_iff in Hm. destruct Hm as (c & <- & Hc). intros X. apply H. cbn [scat_syms]. apply in_flat_map. exists c. split; [assumption|apply in_or_app; auto].
Qed.
Lemma no_n_weight s w : no_n s -> In w (weights s) -> ~ In "n" (syms w).
Proof.
  intros H Hm. destruct s; cbn [weights] in Hm; try destruct Hm.
  apply in_map_iff in Hm. destruct Hm as (c & <- & Hc). intros X. apply H. cbn [scat_syms]. apply in_flat_map. exists c. split; [assumption|apply in_or_app; auto].
Qed.
Lemma exp_wd f t0 tex p0 pex s N e : wd f t0 -> wd f tex -> wd f p0 -> wd f pex -> no_n s -> ok_exp f s ->
  legendre_expansion t0 tex p0 pex s = Ok e -> ncoefs s = Ok N -> wd f e.
Proof.
  intros O1 O2 O3 O4 Nn [Om Ow] H HN. rewrite Forall_forall in Om, Ow.
  refine (expansion_ind t0 tex p0 pex (wd f) (wd f) (wd_a f) s N e _ _ _ _ _ _ _ _ H HN);
    auto using wd_eadd, wd_emul; try exact I.
  - intros m Hm B. pose proof (no_n_member _ _ Nn Hm) as Nm. destruct (Om m Hm) as [Oc Oa]. split.
    + intros k c Hc. eapply wd_coef; eassumption.
    + intros k. rewrite at_n_a_id; [assumption|]. intros X. apply Nm. now apply (scat_a_syms _ B).
  - intros w k Hw. rewrite at_n_id; [auto|]. now apply (no_n_weight s).
  - intros k c a Hk Wc Wa. apply wd_emul; [assumption|]. apply wd_legendre. now apply wd_angle.
Qed.
(** values depend on the symbols of the parameters only *)
Lemma coef_value_ext f g s : is_basic s -> (forall x, In x (scat_syms s) -> f x = g x) -> forall k, coef_value f s k = coef_value g s k.
Proof.
  intros B H k. destruct s; cbn [coef_value scat_syms] in *; try reflexivity;
    try (rewrite (FnAlg.evalR_ext f g t) by (intros; apply H; apply in_or_app; auto)); try reflexivity.
  rewrite (FnAlg.evalR_ext f g (a0 a)); [reflexivity|]. intros x Hx. apply H. apply in_or_app. right. unfold a_syms. apply in_or_app. auto.
Qed.
Lemma ev_a_ext f g a : (forall x, In x (a_syms a) -> f x = g x) -> ev_a f a = ev_a g a.
Proof.
  intros H. unfold ev_a. rewrite (FnAlg.evalR_ext f g (a0 a)), (FnAlg.evalR_ext f g (a1 a)), (FnAlg.evalR_ext f g (a2 a)); auto;
    intros x Hx; apply H; unfold a_syms; apply in_or_app; auto; right; apply in_or_app; auto.
Qed.
Lemma leg_series_ext c c' n x : (forall k, c k = c' k) -> leg_series c n x = leg_series c' n x.
Proof. intros H. induction n; simpl; [reflexivity|]. now rewrite IHn, H. Qed.
Lemma expansion_value_ext f g s t0 tex p0 pex : Forall is_basic (members s) -> (forall x, In x (scat_syms s) -> f x = g x) ->
  expansion_value f s t0 tex p0 pex = expansion_value g s t0 tex p0 pex.
Proof.
  intros MB H. destruct (basic_dec s) as [(cs & a & ->)|B].
  - cbn [expansion_value members scat_syms] in *. apply wsum_ext. intros c Hc. rewrite Forall_forall in MB.
    pose proof (MB (snd c) (in_map snd cs c Hc)) as Bc.
    assert (Hs : forall x, In x (scat_syms (snd c)) -> f x = g x).
    { intros x Hx. apply H. apply in_flat_map. exists c. split; [assumption|apply in_or_app; auto]. }
    rewrite (FnAlg.evalR_ext f g (fst c)).
    + rewrite (ev_a_ext f g (scat_a (snd c))) by (intros x Hx; apply Hs; now apply (scat_a_syms _ Bc)).
      rewrite (leg_series_ext _ (coef_value g (snd c))); [reflexivity|]. now apply coef_value_ext.
    + intros x Hx. apply H. apply in_flat_map. exists c. split; [assumption|apply in_or_app; auto].
  - assert (E : forall h, expansion_value h s t0 tex p0 pex = leg_series (coef_value h s) (nc_of s) (cos_angle (ev_a h (scat_a s)) t0 tex p0 pex)).
    { intros h. destruct s; try reflexivity. destruct (B choices a). reflexivity. }
    rewrite !E. rewrite (ev_a_ext f g (scat_a s)) by (intros x Hx; apply H; now apply (scat_a_syms _ B)).
    apply leg_series_ext. now apply coef_value_ext.
Qed.
Lemma lexp_basic_members t0 tex p0 pex s e : legendre_expansion t0 tex p0 pex s = Ok e -> Forall is_basic (members s).
Proof.
  intros H. destruct (basic_dec s) as [(cs & a & ->)|B].
  - apply lexp_members in H. cbn [members]. rewrite Forall_map. exact H.
  - assert (members s = [s]) by (destruct s; try reflexivity; destruct (B choices a); reflexivity). rewrite H0. repeat constructor. exact B.
Qed.
