(** The derivative formulas of the program at one element. *)
From Coquelicot Require Import Coquelicot.
From Coq Require Import Lia List.
From Verif Require Import SpecJac SpecScat.
From Verif Require Export Formula ScatEl Deriv.
Open Scope string_scope.
Open Scope nat_scope.
Open Scope list_scope.

Section Kernels.
  Context (i : list nat) (x : point).
  Notation m0 := (cos (p_t0 x)).
  Notation m1 := (cos (p_tex x)).
  Hypothesis (H0 : (0 < m0)%R) (H1 : (0 < m1)%R).
  Context (i0 om mu0 muex tau v srf bsf norm : nd xr).
  Hypothesis (Ei0 : bget i0 i = Fin (p_I0 x)) (Em0 : bget mu0 i = Fin m0) (Em1 : bget muex i = Fin m1) (Et : bget tau i = Fin (p_tau x)).
  Ltac fin := cbn [xmul xadd xsub xopp xexp num scalar]; rewrite ?xsub_Fin; repeat (rewrite xdiv_Fin by (first [lra | apply Rgt_not_eq, Rdiv_lt_0_compat; lra]); cbn [xmul xadd xsub xopp xexp]; rewrite ?xsub_Fin).
  Lemma k_atten2_val a : k_atten2 tau mu0 muex = Ok a -> bget a i = Fin (attenuation x).
  Proof.
    unfold k_atten2. kernel. unfold nexp. rewrite bget_map1. bg. unfold nneg. rewrite bget_map1, Em0, Em1, Et. fin. f_equal. unfold attenuation. f_equal. field. lra.
  Qed.
  Lemma k_atten_val a : k_atten tau mu0 muex = Ok a -> bget a i = Fin (attenuation x).
  Proof. intros H. rewrite (k_atten_el _ _ _ _ i H), Em0, Em1, Et. apply x_atten_val; lra. Qed.
  Definition bare1 (b : R) : R := (p_I0 x * m0 * b)%R.
  Lemma k_bare_val b c : bget b i = Fin c -> forall a, k_bare i0 mu0 b = Ok a -> bget a i = Fin (bare1 c).
  Proof. intros E a H. rewrite (k_bare_el _ _ _ _ i H), Ei0, Em0, E. reflexivity. Qed.
  Lemma num1 : bget (num 1) i = Fin 1. Proof. apply bget_scalar. Qed.

  Hypothesis (Eb : bget bsf i = Fin (p_bsfr x)).
  Lemma k_mix_val p q a b c : bget p i = Fin a -> bget q i = Fin b -> k_mix bsf p q = Ok c -> bget c i = Fin ((1 - p_bsfr x) * a + p_bsfr x * b).
  Proof. intros E1 E2 H. rewrite (k_mix_el _ _ _ _ i H), E1, E2, Eb. unfold x_mix. now rewrite xsub_Fin. Qed.
  Hypothesis (Eo : bget om i = Fin (p_omega x)) (En : bget norm i = Fin (p_norm x)).
  (** the volume part of the code's tau derivative: mu_ex where 1/mu_ex is meant *)
  Definition code_vol_tau : R :=
    ((1 - p_bsfr x) * (p_I0 x * p_omega x * (m0 / (m0 + m1)) * ((1 / m0 + m1) * attenuation x) * p_vol x))%R.
  Lemma k_dvolume_dtau_val a : bget v i = Fin (p_vol x) -> k_dvolume_dtau i0 om mu0 muex tau v bsf = Ok a -> bget a i = Fin code_vol_tau.
  Proof.
    intros Ev H. unfold k_dvolume_dtau in H. kernel.
    match goal with E : k_atten2 _ _ _ = Ok ?z |- _ => rewrite (k_atten2_val _ E) end.
    rewrite ?num1, Ei0, Em0, Em1, Eb, Eo, Ev. fin. f_equal. unfold code_vol_tau. field. repeat split; lra.
  Qed.
  Lemma k_dvolume_domega_val a : bget v i = Fin (p_vol x) -> k_dvolume_domega i0 mu0 muex tau v bsf = Ok a -> bget a i = Fin (part_omega x).
  Proof.
    intros Ev H. unfold k_dvolume_domega in H. kernel.
    match goal with E : k_atten _ _ _ = Ok ?z |- _ => rewrite (k_atten_val _ E) end.
    rewrite ?num1, Ei0, Em0, Em1, Eb, Ev. fin. f_equal. 
  Qed.
  Definition vol1 (b : R) : R := (p_I0 x * p_omega x * m0 / (m0 + m1) * (1 - attenuation x) * b)%R.
  Lemma k_vol_val b c a : bget b i = Fin c -> k_vol i0 om mu0 muex tau b = Ok a -> bget a i = Fin (vol1 c).
  Proof.
    intros E H. rewrite (k_vol_el _ _ _ _ _ _ _ i H), Ei0, Eo, Em0, Em1, Et, E. unfold x_vol. rewrite x_atten_val by lra.
    fin. reflexivity.
  Qed.
  Lemma k_dvolume_dbsf_val a : bget v i = Fin (p_vol x) -> k_dvolume_dbsf i0 om mu0 muex tau v = Ok a -> bget a i = Fin (- vol1 (p_vol x)).
  Proof.
    intros Ev H. unfold k_dvolume_dbsf in H. kernel. unfold nneg. rewrite bget_map1. match goal with E : k_vol _ _ _ _ _ _ = Ok ?z |- _ => rewrite (k_vol_val _ _ _ Ev E) end. reflexivity.
  Qed.
  Lemma k_dvolume_direct_val dv c a : bget dv i = Fin c -> k_dvolume_direct i0 om mu0 muex tau dv bsf = Ok a -> bget a i = Fin (c * part_vol x).
  Proof.
    intros E H. unfold k_dvolume_direct in H. kernel.
    match goal with E : k_atten _ _ _ = Ok ?z |- _ => rewrite (k_atten_val _ E) end.
    rewrite ?num1, Ei0, Em0, Em1, Eb, Eo, E. fin. f_equal. unfold part_vol. field. lra.
  Qed.
  Definition surf_tau : R :=
    (- (1 / m0 + 1 / m1) * attenuation x * (p_norm x * (1 - p_bsfr x) * bare1 (p_brdf x)))%R.
  Lemma k_dsurface_dtau_val a : bget srf i = Fin (p_brdf x) -> k_dsurface_dtau i0 mu0 muex tau srf norm bsf = Ok a -> bget a i = Fin surf_tau.
  Proof.
    intros Ev H. unfold k_dsurface_dtau in H. kernel.
    match goal with E : k_atten2 _ _ _ = Ok ?z |- _ => rewrite (k_atten2_val _ E) end.
    rewrite ?num1, Ei0, Em0, Em1, Eb, En, Ev. unfold num. rewrite ?bget_scalar. fin. f_equal. unfold surf_tau, bare1. field. repeat split; lra.
  Qed.
  Lemma k_dsurface_dNormBRDF_val a : bget srf i = Fin (p_brdf x) -> k_dsurface_dNormBRDF i0 mu0 muex srf tau bsf = Ok a -> bget a i = Fin (part_norm x).
  Proof.
    intros Ev H. unfold k_dsurface_dNormBRDF in H. rb H. rb H. rb H. pose proof (k_bare_val _ _ Ev _ E) as B. pose proof (k_atten_val _ E0) as A.
    unfold nmul in E1. rewrite (k_mix_val _ _ (attenuation x * bare1 (p_brdf x)) (bare1 (p_brdf x)) _ ltac:(rewrite (bget_map2 _ _ _ _ i E1), A, B; reflexivity) B H). reflexivity.
  Qed.
  Definition surf_bsf : R := (p_norm x * (bare1 (p_brdf x) - attenuation x * bare1 (p_brdf x)))%R.
  Lemma k_dsurface_dbsf_val t0 a : bget srf i = Fin (p_brdf x) -> k_dsurface_dbsf i0 mu0 muex srf tau norm t0 = Ok a -> bget a i = Fin surf_bsf.
  Proof.
    intros Ev H. unfold k_dsurface_dbsf in H. kernel.
    repeat match goal with E : k_atten _ _ _ = Ok ?z |- _ => rewrite (k_atten_val _ E); clear E | E : k_bare _ _ _ = Ok ?z |- _ => rewrite (k_bare_val _ _ Ev _ E); clear E end.
    rewrite En. unfold ones_like. rewrite bget_mk. fin. f_equal. unfold surf_bsf. ring.
  Qed.
  Lemma k_dsurface_direct_val ds c a : bget ds i = Fin c -> k_dsurface_direct i0 mu0 muex ds tau norm bsf = Ok a -> bget a i = Fin (c * part_brdf x).
  Proof.
    intros Ev H. unfold k_dsurface_direct in H. rb H. rb H. rb H. rb H. pose proof (k_bare_val _ _ Ev _ E) as B. pose proof (k_atten_val _ E0) as A.
    unfold nmul in E1, H. pose proof (k_mix_val _ _ (attenuation x * bare1 c) (bare1 c) _ ltac:(rewrite (bget_map2 _ _ _ _ i E1), A, B; reflexivity) B E2) as M.
    rewrite (bget_map2 _ _ _ _ i H), En, M. cbn [xmul]. f_equal. unfold part_brdf, bare1. ring.
  Qed.
End Kernels.

(** ** The methods *)
Lemma ok_inj {A} (a b : A) : Ok a = Ok b -> b = a.
Proof. congruence. Qed.

Section Methods.
  Context (w : world) (q : op) (o : nat) (C : config) (fe : res (option compiled)).
  Hypothesis (G : good w q) (Hc : at_conf w o C fe).
  Context (i : list nat) (x : point).
  Hypothesis (P : at_point w o i x) (H0 : (0 < cos (p_t0 x))%R) (H1 : (0 < cos (p_tex x))%R).
  Notation EI := (el_I0 w o C fe Hc i x P).
  Notation EM := (el_mu0 w q o C fe G Hc i x P).
  Notation EX := (el_muex w q o C fe G Hc i x P).
  Notation EP := (el_param w q o C fe G Hc i x P).
  Notation ES := (el_scat w q o C fe G Hc i x P).
  Ltac rbs H := repeat match type of H with rbind ?e _ = Ok _ => let E := fresh "E" in destruct e eqn:E; [cbn [rbind] in H|discriminate H] end.
  Ltac vals := repeat match goal with
    | E : c_I0 C = Ok _ |- _ => apply EI in E | E : p_mu0 C = Ok _ |- _ => apply EM in E | E : p_muex C = Ok _ |- _ => apply EX in E
    | E : p_val C _ = Ok _ |- _ => apply EP in E; cbn beta iota in E | E : p_scat C _ = Ok _ |- _ => apply ES in E; cbn beta iota in E end.
  Lemma el_dvolume_dtau a : p_dvolume_dtau C = Ok a -> bget a i = Fin (code_vol_tau x).
  Proof. unfold p_dvolume_dtau. intros H. rbs H. vals. eapply (k_dvolume_dtau_val i x H0 H1); [..|exact H]; eassumption. Qed.
  Lemma el_dvolume_domega a : p_dvolume_domega C = Ok a -> bget a i = Fin (part_omega x).
  Proof. unfold p_dvolume_domega. intros H. rbs H. vals. eapply (k_dvolume_domega_val i x H0 H1); [..|exact H]; eassumption. Qed.
  Lemma el_dvolume_dbsf a : p_dvolume_dbsf C = Ok a -> bget a i = Fin (- vol1 x (p_vol x)).
  Proof. unfold p_dvolume_dbsf. intros H. rbs H. vals. eapply (k_dvolume_dbsf_val i x H0 H1); [..|exact H]; eassumption. Qed.
  Lemma el_dsurface_dtau a : p_dsurface_dtau C = Ok a -> bget a i = Fin (surf_tau x).
  Proof. unfold p_dsurface_dtau. intros H. rbs H. vals. eapply (k_dsurface_dtau_val i x H0 H1); [..|exact H]; eassumption. Qed.
  Lemma el_dsurface_dNormBRDF a : p_dsurface_dNormBRDF C = Ok a -> bget a i = Fin (part_norm x).
  Proof. unfold p_dsurface_dNormBRDF. intros H. rbs H. vals. eapply (k_dsurface_dNormBRDF_val i x H0 H1); [..|exact H]; eassumption. Qed.
  Lemma el_dsurface_dbsf a : p_dsurface_dbsf C = Ok a -> bget a i = Fin (surf_bsf x).
  Proof. unfold p_dsurface_dbsf. intros H. rbs H. vals. eapply (k_dsurface_dbsf_val i x H0 H1); [..|exact H]; eassumption. Qed.
  (** the factor of the selected unit that the program applies *)
  Definition code_factor : R := if c_sig0 C && negb (c_dB C) then (4 * PI * cos (p_t0 x))%R
    else if c_dB C then (10 / (ln 10 * direct_value x))%R else 1%R.
  Lemma el_norm a : (c_dB C = true -> direct_value x <> 0%R) -> p_jac_norm C = Ok a -> bget a i = Fin code_factor.
  Proof.
    intros D H. unfold p_jac_norm in H. unfold code_factor. destruct (c_sig0 C && negb (c_dB C)).
    { rb H. vals. unfold nmul in H. rewrite (bget_map2 _ _ _ _ i H). unfold num. rewrite bget_scalar, E. reflexivity. }
    destruct (c_dB C); [|apply ok_inj in H; subst a; unfold num; now rewrite bget_scalar].
    rbs H. apply (surface_el w q o C fe G Hc i x P H0 H1) in E. apply (volume_el w q o C fe G Hc i x P H0 H1) in E0.
    unfold ndiv, nmul, nadd in *. rewrite (bget_map2 _ _ _ _ i H), (bget_map2 _ _ _ _ i E2), (bget_map2 _ _ _ _ i E1), E, E0. unfold num. rewrite !bget_scalar.
    cbn [xadd xmul]. rewrite xdiv_Fin; [reflexivity|]. intros Z. apply Rmult_integral in Z. destruct Z as [Z|Z]; [|now apply D].
    assert (0 < ln 10)%R by (rewrite <- ln_1; apply ln_increasing; lra). lra.
  Qed.
  (** an entry of jacobian() *)
  Lemma el_entry norm j key c : bget norm i = Fin c -> p_jac_entry C norm key = Ok j ->
    exists s v, p_jac_sv C key = Ok (s, v) /\ bget j i = xmul (xadd (bget s i) (bget v i)) (Fin c).
  Proof.
    intros En H. unfold p_jac_entry in H. rbs H. match goal with E : p_jac_sv C key = Ok ?p |- _ => destruct p as [s v] end. cbn [fst snd] in E0. exists s, v. split; [reflexivity|].
    unfold nadd, nmul in *. now rewrite (bget_map2 _ _ _ _ i H), (bget_map2 _ _ _ _ i E0), En.
  Qed.
  (** the fixed keys *)
  Definition code_part (key : string) : option R :=
    if String.eqb key "omega" then Some (part_omega x) else if String.eqb key "tau" then Some (surf_tau x + code_vol_tau x)%R
    else if String.eqb key "NormBRDF" then Some (part_norm x) else if String.eqb key "bsf" then Some (surf_bsf x + - vol1 x (p_vol x))%R else None.
  Lemma el_fixed key d s v : code_part key = Some d -> p_jac_sv C key = Ok (s, v) -> xadd (bget s i) (bget v i) = Fin d.
  Proof.
    unfold code_part, p_jac_sv. intros Hd H.
    destruct (String.eqb key "omega").
    { apply some_inj in Hd; subst d. rb H. apply ok_inj in H. injection H as -> ->. apply el_dvolume_domega in E. unfold num. rewrite bget_scalar, E. cbn [xadd]. f_equal. ring. }
    destruct (String.eqb key "tau").
    { apply some_inj in Hd; subst d. rbs H. apply ok_inj in H. injection H as -> ->. apply el_dvolume_dtau in E0. apply el_dsurface_dtau in E. rewrite E, E0. reflexivity. }
    destruct (String.eqb key "NormBRDF").
    { apply some_inj in Hd; subst d. rbs H. apply ok_inj in H. injection H as -> ->. apply el_dsurface_dNormBRDF in E. unfold num. rewrite bget_scalar, E. cbn [xadd]. f_equal. ring. }
    destruct (String.eqb key "bsf"); [|discriminate].
    apply some_inj in Hd; subst d. rbs H. apply ok_inj in H. injection H as -> ->. apply el_dvolume_dbsf in E0. apply el_dsurface_dbsf in E. rewrite E, E0. reflexivity.
  Qed.
End Methods.
