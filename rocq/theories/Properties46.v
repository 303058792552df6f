(** Rounding errors of the derivatives with respect to parameters of the distribution functions: C110. *)
From Flocq Require Import Core Relative.
From Coquelicot Require Import Coquelicot.
From Coq Require Import ZArith Reals Lra Lia List.
From Verif Require Import Spec Float Jacobian.
From Verif Require Import Elem Properties35 Properties42 Properties44.
Open Scope R_scope.

(** ** Model: _calc.py:1382-1392 and 1453-1463 apply the operations of _volume and _surface to the value of the differentiated distribution
    function, in the same order: [g_volume] and [g_surface] of Float.v.  The two lemmas tie them to the derivatives of Jacobian.v. *)
Lemma exact_vdirect i0 om mu0 muex tau dv bsf a i : k_dvolume_direct i0 om mu0 muex tau dv bsf = Ok a ->
  bget a i = g_volume exact (bget i0 i) (bget om i) (bget mu0 i) (bget muex i) (bget tau i) (bget dv i) (bget bsf i).
Proof. unfold k_dvolume_direct, k_atten. kernel. unfold nexp, nneg. repeat (progress (bg; unfold nexp, nneg; rewrite ?bget_map1, ?bget_scalar)). reflexivity. Qed.
Lemma exact_sdirect i0 mu0 muex dsrf tau norm bsf a i : k_dsurface_direct i0 mu0 muex dsrf tau norm bsf = Ok a ->
  bget a i = g_surface exact (bget i0 i) (bget mu0 i) (bget muex i) (bget dsrf i) (bget tau i) (bget norm i) (bget bsf i).
Proof. unfold k_dsurface_direct, k_bare, k_atten, k_mix. kernel. unfold nexp, nneg. repeat (progress (bg; unfold nexp, nneg; rewrite ?bget_map1, ?bget_scalar)). reflexivity. Qed.

(** ** Specification: the value of a distribution function replaced *)
Definition set_vol (x : point) (t : R) : point :=
  mk_point (p_I0 x) (p_t0 x) (p_tex x) (p_tau x) (p_omega x) (p_norm x) (p_bsfr x) t (p_brdf x).
Definition set_brdf (x : point) (t : R) : point :=
  mk_point (p_I0 x) (p_t0 x) (p_tex x) (p_tau x) (p_omega x) (p_norm x) (p_bsfr x) (p_vol x) t.
Lemma vol_linear x t : volume_value (set_vol x t) = volume_value (set_vol x 1) * t.
Proof. unfold volume_value, attenuation, set_vol. cbn [p_I0 p_t0 p_tex p_tau p_omega p_norm p_bsfr p_vol p_brdf]. ring. Qed.
Lemma brdf_linear x t : surface_value (set_brdf x t) = surface_value (set_brdf x 1) * t.
Proof. unfold surface_value, attenuation, set_brdf. cbn [p_I0 p_t0 p_tex p_tau p_omega p_norm p_bsfr p_vol p_brdf]. ring. Qed.
Lemma linear_derivative (g : R -> R) c f p d : (forall t, g t = c * t) -> derivable_pt_lim f p d -> derivable_pt_lim (fun q => g (f q)) p (g d).
Proof.
  intros G F. rewrite G. apply is_derive_Reals. apply (is_derive_ext (fun q => c * f q)); [intros q; now rewrite G|].
  apply is_derive_Reals in F. apply (is_derive_scal f p c d F).
Qed.

(** ** Signs *)
Lemma near_opp d v z : near d (- v) (- z) -> near d v z.
Proof. intros (k & K & E). exists k. split; [exact K|]. lra. Qed.
Section Signs.
  Context (L : libm).
  Notation A := (binary64 L).
  (** a finite product or sum has finite operands *)
  Lemma fin_mul u v z : f_mul A u v = Fin z -> exists a b, u = Fin a /\ v = Fin b.
  Proof.
    assert (F : forall n, ieee (inf_of_sign n) <> Fin z) by (intros n; unfold inf_of_sign; destruct n; discriminate).
    cbn [f_mul binary64]. destruct u, v; cbn [xmul]; intros E; try discriminate E; try (exfalso; exact (F _ E)); eauto.
  Qed.
  Lemma volume_neg i0 om mu0 muex tau v bsf r : g_volume A i0 om mu0 muex tau (Fin v) bsf = Fin r ->
    g_volume A i0 om mu0 muex tau (Fin (- v)) bsf = Fin (- r).
  Proof.
    unfold g_volume, g_vol. intros E. destruct (fin_mul _ _ _ E) as (b & w & Eb & Ew). rewrite Eb, Ew in E. rewrite Eb.
    destruct (fin_mul _ _ _ Ew) as (q & v' & Eq & Ev). rewrite Eq in *. rewrite (mul_neg_r _ _ _ _ Ew). now apply mul_neg_r.
  Qed.
  Lemma add_neg u v z : f_add A (Fin u) (Fin v) = Fin z -> f_add A (Fin (- u)) (Fin (- v)) = Fin (- z).
  Proof. cbn [f_add binary64 xadd]. intros E. replace (- u + - v) with (- (u + v)) by ring. now apply ieee_opp. Qed.
  Lemma fin_add u v z : f_add A u v = Fin z -> exists a b, u = Fin a /\ v = Fin b.
  Proof. cbn [f_add binary64]. destruct u, v; cbn [xadd]; intros E; try discriminate E; eauto. Qed.
  Lemma surface_neg i0 mu0 muex srf tau norm bsf r : g_surface A i0 mu0 muex (Fin srf) tau norm bsf = Fin r ->
    g_surface A i0 mu0 muex (Fin (- srf)) tau norm bsf = Fin (- r).
  Proof.
    unfold g_surface, g_mix, g_bare. intros E. destruct (fin_mul _ _ _ E) as (n & m & En & Em). rewrite En, Em in E. rewrite En.
    destruct (fin_add _ _ _ Em) as (a & b & Ea & Eb). rewrite Ea, Eb in Em.
    destruct (fin_mul _ _ _ Ea) as (ob & w & Eo & Ew). rewrite Eo, Ew in Ea. rewrite Eo.
    destruct (fin_mul _ _ _ Eb) as (f & c & Ef & Ec). rewrite Ef, Ec in Eb. rewrite Ef.
    destruct (fin_mul _ _ _ Ew) as (e & c' & Ee & _). rewrite Ee, Ec in Ew. rewrite Ee.
    destruct (fin_mul _ _ _ Ec) as (q & s & Eq & _). rewrite Eq in Ec. rewrite Eq.
    rewrite (mul_neg_r _ _ _ _ Ec), (mul_neg_r _ _ _ _ Ew), (mul_neg_r _ _ _ _ Ea), (mul_neg_r _ _ _ _ Eb), (add_neg _ _ _ Em). now apply mul_neg_r.
  Qed.
End Signs.

(** *** C110.  Rounding errors of the derivatives with respect to parameters of the distribution functions.
    f gives the value of the distribution function at the given angles for each value of the parameter, d is its derivative at the current
    value p (of either sign), and dv the computed value of that derivative. *)
Theorem C110_surface : forall L x f p d ds k,
  good_exp L -> good_cos L (p_t0 x) -> good_cos L (p_tex x) -> in_range x -> 0 < cos (p_t0 x) -> 0 < cos (p_tex x) -> depth x <= 300 ->
  derivable_pt_lim f p d -> 0 <= k <= 1000 -> near (k * eps) d ds -> sized (-60) 60 (Rabs ds) ->
  let A := binary64 L in
  exists r D, g_surface A (Fin (p_I0 x)) (f_cos A (Fin (p_t0 x))) (f_cos A (Fin (p_tex x))) (Fin ds) (Fin (p_tau x)) (Fin (p_norm x)) (Fin (p_bsfr x)) = Fin r /\
    derivable_pt_lim (fun q => surface_value (set_brdf x (f q))) p D /\
    Rabs (r - D) <= 2 * (9 + k + 6 * depth x) * eps * Rabs D.
Proof.
  intros L x f p d ds k GE G0 G1 IR C0 C1 DT FD Hk Nb Sb A.
  assert (P : forall d ds, 0 <= ds -> near (k * eps) d ds -> sized (-60) 60 ds ->
    exists r, g_surface A (Fin (p_I0 x)) (f_cos A (Fin (p_t0 x))) (f_cos A (Fin (p_tex x))) (Fin ds) (Fin (p_tau x)) (Fin (p_norm x)) (Fin (p_bsfr x)) = Fin r /\
      Rabs (r - surface_value (set_brdf x d)) <= 2 * (9 + k + 6 * depth x) * eps * Rabs (surface_value (set_brdf x d))).
  { intros d' ds' _ N S. destruct (C97_surface L (set_brdf x d') ds' k GE G0 G1 IR C0 C1 DT Hk N S) as (r & Er & Br). exists r. split; [exact Er|].
    rewrite (Rabs_pos_eq (surface_value _)); [exact Br|]. apply (surface_pos (set_brdf x d') ds' (k * eps) IR C0 C1 N S). }
  pose proof (linear_derivative (fun t => surface_value (set_brdf x t)) _ f p d (brdf_linear x) FD) as DD. cbn beta in DD.
  destruct (Rle_lt_dec 0 ds) as [H|H].
  - rewrite Rabs_pos_eq in Sb by assumption. destruct (P d ds H Nb Sb) as (r & Er & Br). exists r. eexists. split; [exact Er|]. split; [exact DD|exact Br].
  - rewrite Rabs_left in Sb by assumption. assert (N' : near (k * eps) (- d) (- ds)) by (apply near_opp; now rewrite !Ropp_involutive).
    destruct (P (- d) (- ds) ltac:(lra) N' Sb) as (r & Er & Br). apply surface_neg in Er. rewrite Ropp_involutive in Er.
    exists (- r). eexists. split; [exact Er|]. split; [exact DD|]. rewrite (brdf_linear x (- d)) in Br. rewrite (brdf_linear x d).
    replace (surface_value (set_brdf x 1) * - d) with (- (surface_value (set_brdf x 1) * d)) in Br by ring. rewrite Rabs_Ropp in Br.
    set (w := surface_value (set_brdf x 1) * d) in *. replace (- r - w) with (- (r - - w)) by ring. now rewrite Rabs_Ropp.
Qed.
Print Assumptions C110_surface.

(** The volume part.  Intended: the same; as for the contribution itself (C98) the bound grows with 1/T. *)
Theorem C110_volume_partial : forall L x f p d dv k,
  good_exp L -> good_cos L (p_t0 x) -> good_cos L (p_tex x) -> in_range x -> 0 < cos (p_t0 x) -> 0 < cos (p_tex x) -> two (-43) <= depth x <= 300 ->
  derivable_pt_lim f p d -> 0 <= k <= 1000 -> near (k * eps) d dv -> sized (-60) 60 (Rabs dv) ->
  let A := binary64 L in
  exists r D, g_volume A (Fin (p_I0 x)) (Fin (p_omega x)) (f_cos A (Fin (p_t0 x))) (f_cos A (Fin (p_tex x))) (Fin (p_tau x)) (Fin dv) (Fin (p_bsfr x)) = Fin r /\
    derivable_pt_lim (fun q => volume_value (set_vol x (f q))) p D /\
    Rabs (r - D) <= 2 * (35 + k + 4 / depth x) * eps * Rabs D.
Proof.
  intros L x f p d dv k GE G0 G1 IR C0 C1 DT FD Hk Nb Sb A.
  assert (P : forall d dv, near (k * eps) d dv -> sized (-60) 60 dv ->
    exists r, g_volume A (Fin (p_I0 x)) (Fin (p_omega x)) (f_cos A (Fin (p_t0 x))) (f_cos A (Fin (p_tex x))) (Fin (p_tau x)) (Fin dv) (Fin (p_bsfr x)) = Fin r /\
      Rabs (r - volume_value (set_vol x d)) <= 2 * (35 + k + 4 / depth x) * eps * Rabs (volume_value (set_vol x d))).
  { intros d' dv' N S. destruct (volume_thick L (set_vol x d') dv' k GE G0 G1 IR C0 C1 DT Hk N S) as (_ & _ & _ & _ & PV & _).
    destruct (C98_volume_relative_partial L (set_vol x d') dv' k GE G0 G1 IR C0 C1 DT Hk N S) as (r & Er & Br). exists r. split; [exact Er|].
    rewrite (Rabs_pos_eq (volume_value _)); [exact Br|exact PV]. }
  pose proof (linear_derivative (fun t => volume_value (set_vol x t)) _ f p d (vol_linear x) FD) as DD. cbn beta in DD.
  destruct (Rle_lt_dec 0 dv) as [H|H].
  - rewrite Rabs_pos_eq in Sb by assumption. destruct (P d dv Nb Sb) as (r & Er & Br). exists r. eexists. split; [exact Er|]. split; [exact DD|exact Br].
  - rewrite Rabs_left in Sb by assumption. assert (N' : near (k * eps) (- d) (- dv)) by (apply near_opp; now rewrite !Ropp_involutive).
    destruct (P (- d) (- dv) N' Sb) as (r & Er & Br). apply volume_neg in Er. rewrite Ropp_involutive in Er.
    exists (- r). eexists. split; [exact Er|]. split; [exact DD|]. rewrite (vol_linear x (- d)) in Br. rewrite (vol_linear x d).
    replace (volume_value (set_vol x 1) * - d) with (- (volume_value (set_vol x 1) * d)) in Br by ring. rewrite Rabs_Ropp in Br.
    set (w := volume_value (set_vol x 1) * d) in *. replace (- r - w) with (- (r - - w)) by ring. now rewrite Rabs_Ropp.
Qed.
Print Assumptions C110_volume_partial.
Theorem C110_volume_refuted : forall L x f p d dv k,
  rounded_exp L -> good_cos L (p_t0 x) -> good_cos L (p_tex x) -> in_range x -> 0 < cos (p_t0 x) -> 0 < cos (p_tex x) -> 0 < depth x <= two (-57) ->
  derivable_pt_lim f p d -> near k d dv -> sized (-60) 60 dv -> 0 < deep_value (set_vol x d) ->
  let A := binary64 L in
  g_volume A (Fin (p_I0 x)) (Fin (p_omega x)) (f_cos A (Fin (p_t0 x))) (f_cos A (Fin (p_tex x))) (Fin (p_tau x)) (Fin dv) (Fin (p_bsfr x)) = Fin 0 /\
  exists D, derivable_pt_lim (fun q => volume_value (set_vol x (f q))) p D /\ 0 < D.
Proof.
  intros L x f p d dv k RE G0 G1 IR C0 C1 DT FD N S PD A.
  destruct (C98_volume_refuted L (set_vol x d) dv k RE G0 G1 IR C0 C1 N S DT PD) as (E & V & _). split; [exact E|].
  eexists. split; [exact (linear_derivative (fun t => volume_value (set_vol x t)) _ f p d (vol_linear x) FD)|exact V].
Qed.
Print Assumptions C110_volume_refuted.

(** the layers of Properties35.v, with a decreasing distribution function (surface) and an increasing one (volume) *)
Lemma lin_der c p : derivable_pt_lim (fun q => c * q) p c.
Proof. apply is_derive_Reals. auto_derive; [trivial|ring]. Qed.
Example C110_nonvacuous :
  (let x := layer 1 in let A := binary64 lib_ex in
   (exists r D, g_surface A (Fin (p_I0 x)) (f_cos A (Fin (p_t0 x))) (f_cos A (Fin (p_tex x))) (Fin (- (1 / 4))) (Fin (p_tau x)) (Fin (p_norm x)) (Fin (p_bsfr x)) = Fin r /\
     derivable_pt_lim (fun q => surface_value (set_brdf x (- (1 / 4) * q))) 1 D /\ Rabs (r - D) <= 2 * (9 + 0 + 6 * 4) * eps * Rabs D) /\
   (exists r D, g_volume A (Fin (p_I0 x)) (Fin (p_omega x)) (f_cos A (Fin (p_t0 x))) (f_cos A (Fin (p_tex x))) (Fin (p_tau x)) (Fin (- (1 / 8))) (Fin (p_bsfr x)) = Fin r /\
     derivable_pt_lim (fun q => volume_value (set_vol x (- (1 / 8) * q))) 1 D /\ Rabs (r - D) <= 2 * (35 + 0 + 4 / 4) * eps * Rabs D)) /\
  (let x := layer (two (-60)) in let A := binary64 lib_ex in
   g_volume A (Fin (p_I0 x)) (Fin (p_omega x)) (f_cos A (Fin (p_t0 x))) (f_cos A (Fin (p_tex x))) (Fin (p_tau x)) (Fin (1 / 8)) (Fin (p_bsfr x)) = Fin 0 /\
   exists D, derivable_pt_lim (fun q => volume_value (set_vol x (1 / 8 * q))) 1 D /\ 0 < D).
Proof.
  split; intros x A.
  - destruct (layer_ok 0 ltac:(lia)) as (RE & G & IR & C & Nb & Sb & N & S & D & _). rewrite two_0 in *. change (two (0 + 2)) with 4 in D. fold x in IR, D.
    assert (B : two (-43) <= two 0) by (apply bpow_le; lia). rewrite two_0 in B.
    assert (Nb' : near (0 * eps) (- (1 / 4)) (- (1 / 4))) by (rewrite Rmult_0_l; apply near_refl). assert (N' : near (0 * eps) (- (1 / 8)) (- (1 / 8))) by (rewrite Rmult_0_l; apply near_refl).
    split.
    + pose proof (C110_surface lib_ex x (fun q => - (1 / 4) * q) 1 (- (1 / 4)) (- (1 / 4)) 0 (rounded_good _ RE) G G IR C C ltac:(lra) (lin_der _ _) ltac:(lra) Nb') as K.
      rewrite D in K. apply K. rewrite Rabs_Ropp, Rabs_pos_eq by lra. exact Sb.
    + pose proof (C110_volume_partial lib_ex x (fun q => - (1 / 8) * q) 1 (- (1 / 8)) (- (1 / 8)) 0 (rounded_good _ RE) G G IR C C ltac:(lra) (lin_der _ _) ltac:(lra) N') as K.
      rewrite D in K. apply K. rewrite Rabs_Ropp, Rabs_pos_eq by lra. exact S.
  - destruct (layer_ok (-60) ltac:(lia)) as (RE & G & IR & C & _ & _ & N & S & D & PD). fold x in IR, D, PD.
    exact (C110_volume_refuted lib_ex x (fun q => 1 / 8 * q) 1 (1 / 8) (1 / 8) _ RE G G IR C C ltac:(rewrite D; split; [apply two_pos|apply bpow_le; lia]) (lin_der _ _) N S PD).
Qed.
