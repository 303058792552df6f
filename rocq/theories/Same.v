(** Comparing the contributions of two evaluations. *)
From Coquelicot Require Import Coquelicot.
From Verif Require Import ExpInt AzInt LegFacts.
From Coq Require Import Lia List.
From Verif Require Import SpecScat SpecExp SpecInt Flip.
From Verif Require Export After.
Open Scope string_scope.
Open Scope list_scope.
Open Scope R_scope.

Lemma is_F_unique mu0 tau p b F F' : is_F mu0 tau p b F -> is_F mu0 tau p b F' -> F = F'.
Proof. intros [_ A] [_ B]. rewrite <- (rint_val _ _ _ _ A). apply rint_val. exact B. Qed.
Lemma is_F_same mu0 tau p b p' b' F F' : (forall th ph, p th ph = p' th ph) -> (forall th ph, b th ph = b' th ph) ->
  is_F mu0 tau p b F -> is_F mu0 tau p' b' F' -> F = F'.
Proof. intros A B H H'. eapply is_F_unique; [|exact H']. eapply is_F_ext; [exact A|exact B|exact H]. Qed.

(** a full period *)
Lemma is_period (h : R -> R) c I : 0 <= c <= 2 * PI -> (forall x, h (x + 2 * PI) = h x) -> is_RInt h 0 (2 * PI) I ->
  is_RInt (fun x => h (x + c)) 0 (2 * PI) I.
Proof.
  intros Hc P H.
  assert (E : ex_RInt h 0 (2 * PI)) by (eexists; exact H).
  assert (E1 : ex_RInt h 0 c) by (apply (ex_RInt_Chasles_1 h 0 c (2 * PI)); [lra|exact E]).
  assert (E2 : ex_RInt h c (2 * PI)) by (apply (ex_RInt_Chasles_2 h 0 c (2 * PI)); [lra|exact E]).
  destruct E1 as [A HA], E2 as [B HB].
  assert (X1 : is_RInt (fun x => h (x + c)) 0 (2 * PI - c) B).
  { apply (is_ext (fun y => scal 1 (h (1 * y + c)))); [intros y; unfold scal; simpl; unfold mult; simpl; rewrite !Rmult_1_l; reflexivity|].
    apply (is_RInt_comp_lin h 1 c 0 (2 * PI - c)). replace (1 * 0 + c) with c by ring. replace (1 * (2 * PI - c) + c) with (2 * PI) by ring. exact HB. }
  assert (X2 : is_RInt (fun x => h (x + c)) (2 * PI - c) (2 * PI) A).
  { apply (is_ext (fun y => scal 1 (h (1 * y + (c - 2 * PI))))).
    - intros y; unfold scal; simpl; unfold mult; simpl. rewrite !Rmult_1_l. rewrite <- (P (y + (c - 2 * PI))). f_equal. ring.
    - apply (is_RInt_comp_lin h 1 (c - 2 * PI) (2 * PI - c) (2 * PI)). replace (1 * (2 * PI - c) + (c - 2 * PI)) with 0 by ring. replace (1 * (2 * PI) + (c - 2 * PI)) with c by ring. exact HA. }
  pose proof (is_RInt_Chasles _ _ _ _ _ _ X1 X2) as X. eapply is_val; [exact X|].
  assert (Y : is_RInt h 0 (2 * PI) (plus A B)) by (eapply is_RInt_Chasles; eassumption).
  rewrite <- (rint_val _ _ _ _ H). rewrite (rint_val _ _ _ _ Y). unfold plus. simpl. ring.
Qed.
Lemma rep_period c : exists c0, 0 <= c0 <= 2 * PI /\ cos c0 = cos c /\ sin c0 = sin c.
Proof.
  pose proof PI_RGT_0 as HP. set (k := Int_part (c / (2 * PI))).
  assert (B : 0 <= c / (2 * PI) - IZR k < 1). { unfold k. pose proof (base_Int_part (c / (2 * PI))). lra. }
  exists (c - 2 * IZR k * PI). split; [|split].
  - assert (E : c - 2 * IZR k * PI = 2 * PI * (c / (2 * PI) - IZR k)) by (field; lra). rewrite E. nra.
  - assert (G : forall k x, 0 <= IZR k -> cos (x + 2 * IZR k * PI) = cos x).
    { intros z x Hz. apply le_IZR in Hz. rewrite <- (Z2Nat.id z Hz), <- INR_IZR_INZ. apply cos_period. }
    destruct (Rle_dec 0 (IZR k)) as [L|L].
    + rewrite <- (G k (c - 2 * IZR k * PI) L). f_equal. ring.
    + rewrite <- (G (- k)%Z c) by (rewrite opp_IZR; lra). f_equal. rewrite opp_IZR. ring.
  - assert (G : forall k x, 0 <= IZR k -> sin (x + 2 * IZR k * PI) = sin x).
    { intros z x Hz. apply le_IZR in Hz. rewrite <- (Z2Nat.id z Hz), <- INR_IZR_INZ. apply sin_period. }
    destruct (Rle_dec 0 (IZR k)) as [L|L].
    + rewrite <- (G k (c - 2 * IZR k * PI) L). f_equal. ring.
    + rewrite <- (G (- k)%Z c) by (rewrite opp_IZR; lra). f_equal. rewrite opp_IZR. ring.
Qed.

(** the weights [a] of all the functions involved *)
Fixpoint all_a (s : scat) : list atrip :=
  match s with LinComb cs _ => flat_map (fun c => all_a (snd c)) cs | _ => scat_a s :: nil end.
(** azimuthally symmetric: a[1] == a[2] *)
Definition az_sym (f : string -> R) (s : scat) : Prop := forall a, In a (all_a s) -> evalR f (a1 a) = evalR f (a2 a).

Lemma ev_a_ext f g a : (forall x, In x (a_syms a) -> f x = g x) -> ev_a f a = ev_a g a.
Proof.
  intros H. unfold ev_a. f_equal; apply Elem.evalR_ext; intros x Hx; apply H; unfold a_syms; rewrite !in_app_iff; auto.
Qed.
Lemma phase_ext f g s : (forall x, In x (scat_syms s) -> f x = g x) -> (forall a, In a (all_a s) -> ang_of f a = ang_of g a) ->
  phase_value f s = phase_value g s.
Proof.
  revert s. apply (scat_ind' (fun s => (forall x, In x (scat_syms s) -> f x = g x) -> (forall a, In a (all_a s) -> ang_of f a = ang_of g a) ->
    phase_value f s = phase_value g s)); intros; cbn [phase_value scat_syms all_a scat_a] in *;
    rewrite ?(H0 a (or_introl eq_refl)); try reflexivity.
  1-3: f_equal; apply Elem.evalR_ext; intros x Hx; apply H; apply in_or_app; auto.
  - f_equal; apply Elem.evalR_ext; intros x Hx; apply H; unfold a_syms; rewrite !in_app_iff; auto.
  - revert H H0 H1. induction l as [|c l IH]; intros F HS HA; [reflexivity|]. inversion F; subst. cbn [fold_right flat_map] in *. rewrite IH.
    + f_equal. f_equal.
      * apply Elem.evalR_ext; intros x Hx; apply HS; rewrite !in_app_iff; auto.
      * apply H1; [intros x Hx; apply HS; rewrite !in_app_iff; auto|intros b Hb; apply HA, in_or_app; auto].
    + assumption.
    + intros x Hx. apply HS, in_or_app. auto.
    + intros b Hb. apply HA, in_or_app. auto.
Qed.
Lemma basic_all_a s : is_basic s -> all_a s = scat_a s :: nil.
Proof. intros B. destruct s; try reflexivity. destruct (B choices a). reflexivity. Qed.
Lemma expansion_ang f s t0 tex p0 pex t0' tex' p0' pex' : Forall is_basic (members s) ->
  (forall a, In a (all_a s) -> cos_angle (ev_a f a) t0 tex p0 pex = cos_angle (ev_a f a) t0' tex' p0' pex') ->
  expansion_value f s t0 tex p0 pex = expansion_value f s t0' tex' p0' pex'.
Proof.
  intros B H. destruct s; cbn [expansion_value all_a] in *; try (f_equal; apply H; now left).
  apply wsum_ext. intros c Hc. f_equal. f_equal. apply H. apply in_flat_map. exists c. split; [assumption|].
  cbn [members] in B. rewrite Forall_forall in B. rewrite basic_all_a; [now left|]. apply B. now apply in_map.
Qed.
(** rotating both azimuths *)
Lemma az_angle f a t0 tex p0 pex c : evalR f (a1 a) = evalR f (a2 a) ->
  cos_angle (ev_a f a) t0 tex (p0 + c) (pex + c) = cos_angle (ev_a f a) t0 tex p0 pex.
Proof.
  intros E. unfold cos_angle, ev_a. cbn [ga0 ga1 ga2]. rewrite E.
  assert (X : forall u v, cos u * cos v + sin u * sin v = cos (u - v)) by (intros; rewrite cos_minus; reflexivity).
  assert (Y : forall u v, evalR f (a2 a) * cos u * cos v + evalR f (a2 a) * sin u * sin v = evalR f (a2 a) * cos (u - v)) by (intros; rewrite <- X; ring).
  rewrite !Y. replace (p0 + c - (pex + c)) with (p0 - pex) by ring. reflexivity.
Qed.
Lemma az_exp f s t0 tex p0 pex c : az_sym f s -> Forall is_basic (members s) ->
  expansion_value f s t0 tex (p0 + c) (pex + c) = expansion_value f s t0 tex p0 pex.
Proof. intros Z B. apply expansion_ang; [assumption|]. intros a Ha. apply az_angle. now apply Z. Qed.
Lemma swap_angle g t0 tex p0 pex : cos_angle g t0 tex p0 pex = cos_angle g tex t0 pex p0.
Proof. unfold cos_angle. ring. Qed.

(** the integral F does not change when both azimuths are rotated *)
Lemma is_Fint_rotate f V SRF tau t0 p0 tex pex c F : az_sym f V -> az_sym f SRF ->
  Forall is_basic (members V) -> Forall is_basic (members SRF) ->
  is_Fint (expansion_value f V) (expansion_value f SRF) tau t0 p0 tex pex F ->
  is_Fint (expansion_value f V) (expansion_value f SRF) tau t0 (p0 + c) tex (pex + c) F.
Proof.
  intros ZV ZS BV BS. unfold is_Fint. apply is_F_az. intros th I H.
  destruct (rep_period (- c)) as (d & Hd & Cd & Sd).
  set (h := fun u => expansion_value f V (PI - t0) th p0 u * expansion_value f SRF th tex u pex) in *.
  apply (is_ext (fun ph => h (ph + d))).
  - intros ph. unfold h. f_equal.
    + rewrite <- (az_exp f V (PI - t0) th p0 (ph + d) c) by assumption. apply expansion_dirs.
      * f_equal. replace (ph + d + c) with (ph + (c + d)) by ring. rewrite (cos_plus ph), (cos_plus c), (sin_plus c), Cd, Sd, cos_neg, sin_neg.
        pose proof (sin2_cos2 c) as S. unfold Rsqr in S. replace (cos c * cos c - sin c * - sin c) with 1 by lra. replace (sin c * cos c + cos c * - sin c) with 0 by ring. ring.
      * f_equal. replace (ph + d + c) with (ph + (c + d)) by ring. rewrite (sin_plus ph), (cos_plus c), (sin_plus c), Cd, Sd, cos_neg, sin_neg.
        pose proof (sin2_cos2 c) as S. unfold Rsqr in S. replace (cos c * cos c - sin c * - sin c) with 1 by lra. replace (sin c * cos c + cos c * - sin c) with 0 by ring. ring.
    + rewrite <- (az_exp f SRF th tex (ph + d) pex c) by assumption. apply expansion_dirs.
      * f_equal. replace (ph + d + c) with (ph + (c + d)) by ring. rewrite (cos_plus ph), (cos_plus c), (sin_plus c), Cd, Sd, cos_neg, sin_neg.
        pose proof (sin2_cos2 c) as S. unfold Rsqr in S. replace (cos c * cos c - sin c * - sin c) with 1 by lra. replace (sin c * cos c + cos c * - sin c) with 0 by ring. ring.
      * f_equal. replace (ph + d + c) with (ph + (c + d)) by ring. rewrite (sin_plus ph), (cos_plus c), (sin_plus c), Cd, Sd, cos_neg, sin_neg.
        pose proof (sin2_cos2 c) as S. unfold Rsqr in S. replace (cos c * cos c - sin c * - sin c) with 1 by lra. replace (sin c * cos c + cos c * - sin c) with 0 by ring. ring.
  - apply (is_period h); [assumption| |exact H]. intros u. unfold h. f_equal; apply expansion_dirs; rewrite ?(cos_2 u), ?(sin_2 u); reflexivity.
Qed.
