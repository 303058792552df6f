(** The fn-coefficients are the azimuth integral of the product of the two expansions
    (src/rt1_model/_calc.py:815-1065). *)
From Coquelicot Require Import Coquelicot.
From Verif Require Import ExpInt AzInt LegFacts.
From Coq Require Import Lia List.
From Verif Require Import SpecExp.
From Verif Require Export FnDeg.
Open Scope string_scope.
Open Scope list_scope.
Open Scope R_scope.

Lemma is_scale (g : R -> R) (a b c G : R) : is_RInt g a b G -> is_RInt (fun x => c * g x) a b (c * G).
Proof. intros H. exact (is_RInt_scal g a b c G H). Qed.
Lemma is_sum (g h : R -> R) (a b G H : R) : is_RInt g a b G -> is_RInt h a b H -> is_RInt (fun x => g x + h x) a b (G + H).
Proof. intros A B. exact (is_RInt_plus g h a b G H A B). Qed.
Lemma is_zero (a b : R) : is_RInt (fun _ => 0) a b 0.
Proof. pose proof (is_RInt_const a b 0) as H. unfold scal in H. simpl in H. unfold mult in H. simpl in H. replace ((b - a) * 0) with 0 in H by ring. exact H. Qed.
Lemma is_ext (g h : R -> R) (a b G : R) : (forall x : R, g x = h x :> R) -> is_RInt g a b G -> is_RInt h a b G.
Proof. intros E H. apply (is_RInt_ext g); [intros x _; apply E|exact H]. Qed.
Lemma is_val (g : R -> R) (a b G H : R) : is_RInt g a b G -> G = H -> is_RInt g a b H.
Proof. intros A <-. exact A. Qed.

Section Az.
  Context (f : string -> R) (st ct : R) (M : nat) (HM : (0 < M)%nat).
  Lemma list_int (F : mono -> Expr.poly) (l : Expr.poly) :
    Forall (fun m => is_RInt (fun p => mval f (sin p) (cos p) st ct m) 0 (2 * PI) (2 * PI * pval f 0 0 st ct (F m))) l ->
    is_RInt (fun p => pval f (sin p) (cos p) st ct l) 0 (2 * PI) (2 * PI * pval f 0 0 st ct (flat_map F l)).
  Proof.
    induction 1 as [|m l Hm Hl IH].
    - eapply is_val; [apply is_zero|]. simpl. ring.
    - cbn [flat_map]. rewrite pval_app. eapply is_val; [|symmetry; apply Rmult_plus_distr_l].
      apply (is_sum (fun p => mval f (sin p) (cos p) st ct m) (fun p => pval f (sin p) (cos p) st ct l)); assumption.
  Qed.
  Lemma cos_int m : msp m = 0%nat -> (mcp m <= M)%nat ->
    is_RInt (fun p => mval f (sin p) (cos p) st ct m) 0 (2 * PI) (2 * PI * pval f 0 0 st ct (repl_cos_phi M m)).
  Proof.
    intros Hs Hc. rewrite (repl_cos_phi_val f 0 0 st ct M m HM Hs Hc).
    apply (is_ext (fun p => (evalR f (mc m) * st ^ mst m * ct ^ mct m) * cos p ^ mcp m)).
    - intros p. unfold mval. rewrite Hs. simpl. ring.
    - eapply is_val; [apply is_scale, is_cosint|]. ring.
  Qed.
  Lemma mono_int m : (msp m + mcp m <= M)%nat ->
    is_RInt (fun p => mval f (sin p) (cos p) st ct m) 0 (2 * PI) (2 * PI * pval f 0 0 st ct (flat_map (repl_cos_phi M) (repl_sin_phi M m))).
  Proof.
    intros H. destruct (Nat.even (msp m)) eqn:Ev.
    - apply (is_ext (fun p => pval f (sin p) (cos p) st ct (repl_sin_phi M m))).
      + intros p. apply repl_sin_phi_val; auto; [lia|]. pose proof (sin2_cos2 p) as X. unfold Rsqr in X. lra.
      + apply list_int. pose proof (repl_sin_phi_shape M m HM H) as S. eapply Forall_impl; [|exact S].
        intros k (K1 & K2 & K3 & _). apply cos_int; [assumption|lia].
    - rewrite repl_sin_phi_odd by (auto; lia). simpl.
      assert (O : exists k, msp m = S (2 * k)).
      { exists (Nat.div2 (msp m)). pose proof (Nat.div2_odd (msp m)) as X. rewrite <- Nat.negb_even, Ev in X. simpl in X. lia. }
      destruct O as [k Hk].
      apply (is_ext (fun p => (evalR f (mc m) * st ^ mst m * ct ^ mct m) * (sin p ^ S (2 * k) * cos p ^ mcp m))).
      + intros p. unfold mval. rewrite Hk. ring.
      + eapply is_val; [apply is_scale, is_sinodd|]. ring.
  Qed.
  Lemma poly_int d p : (d <= M)%nat -> D 0 d p ->
    is_RInt (fun q => pval f (sin q) (cos q) st ct p) 0 (2 * PI) (2 * PI * pval f 0 0 st ct (integrate_0_2pi_phis M p)).
  Proof.
    intros Hd Hp. unfold integrate_0_2pi_phis.
    replace (flat_map (repl_cos_phi M) (flat_map (repl_sin_phi M) p)) with (flat_map (fun m => flat_map (repl_cos_phi M) (repl_sin_phi M m)) p).
    - apply list_int. eapply Forall_impl; [|exact Hp]. intros m [A B]. apply mono_int. lia.
    - clear. induction p as [|m p IH]; simpl; [reflexivity|]. now rewrite flat_map_app, IH.
  Qed.
End Az.

Lemma pval_free f th ph sp cp st ct p : cf free p -> pval (at_dir f th ph) sp cp st ct p = pval f sp cp st ct p.
Proof.
  induction 1 as [|m p Hm Hp IH]; simpl; [reflexivity|]. rewrite IH. f_equal. unfold mval. now rewrite free_ev.
Qed.
Lemma free_pi : free EPi. Proof. split; intros []. Qed.
Lemma free_2pi : free (EMul (ENum 2) EPi). Proof. split; intros []. Qed.
Definition free_angs (g : angs) : Prop := free (g_t0 g) /\ free (g_tex g) /\ free (g_p0 g) /\ free (g_pex g).

Section Fn.
  Context (V SRF : scat) (g : angs) (fns : list expr).
  Hypothesis (E : calc_fn V SRF g = Ok fns).
  Lemma fn_parts : exists be ve nV nS,
    legendre_expansion (ESym "theta_s") (g_tex g) (ESym "phi_s") (eadd (g_pex g) EPi) SRF = Ok be /\
    legendre_expansion (esub EPi (g_t0 g)) (ESym "theta_s") (g_p0 g) (ESym "phi_s") V = Ok ve /\
    ncoefs V = Ok nV /\ ncoefs SRF = Ok nS /\
    fns = extract_coefficients (nS + nV - 1) (flat_map (repl_sin_theta (nS + nV)) (integrate_0_2pi_phis (nS + nV)
            (expand (emul (emul (EMul (ENum 2) EPi) ve) be)))).
  Proof.
    unfold calc_fn, calc_interaction_expansion in E.
    destruct (legendre_expansion (ESym "theta_s") _ _ _ SRF) as [be|]; [|discriminate E]. cbn [rbind] in E.
    destruct (legendre_expansion _ (ESym "theta_s") _ _ V) as [ve|]; [|discriminate E]. cbn [rbind] in E.
    destruct (ncoefs V) as [nV|]; [|discriminate E]. cbn [rbind] in E. destruct (ncoefs SRF) as [nS|]; [|discriminate E]. cbn [rbind] in E.
    apply ok_eq in E. exists be, ve, nV, nS. rewrite E. auto.
  Qed.
  Context (nV nS : nat) (HV : ncoefs V = Ok nV) (HS : ncoefs SRF = Ok nS) (PV : (0 < nV)%nat) (PS : (0 < nS)%nat).
  Hypothesis (Fg : free_angs g) (FV : free_scat V) (FS : free_scat SRF).
  Lemma free_esub a b : free a -> free b -> free (esub a b). Proof. rewrite !free_iff. apply over_esub. Qed.
  Lemma free_eadd a b : free a -> free b -> free (eadd a b). Proof. rewrite !free_iff. apply over_eadd. Qed.
  Lemma dir_V : dir_in (esub EPi (g_t0 g)) (ESym "theta_s") (g_p0 g) (ESym "phi_s").
  Proof. destruct Fg as (A & _ & C & _). right. repeat split; try apply free_esub; auto using free_pi; apply C. Qed.
  Lemma dir_S : dir_in (ESym "theta_s") (g_tex g) (ESym "phi_s") (eadd (g_pex g) EPi).
  Proof. destruct Fg as (_ & B & _ & C). left. repeat split; try apply free_eadd; auto using free_pi; apply B. Qed.
  Theorem fn_length : length fns = Nat.max 2 (nS + nV - 1).
  Proof.
    destruct fn_parts as (be & ve & nV' & nS' & _ & _ & H1 & H2 & ->). rewrite HV in H1. rewrite HS in H2. inversion H1; inversion H2; subst. apply extract_length.
  Qed.
  (** the two expansions as functions of the intermediate direction *)
  Definition brdf_exp (f : string -> R) (th ph : R) : R :=
    expansion_value f SRF th (evalR f (g_tex g)) ph (evalR f (g_pex g) + PI).
  Definition vol_exp (f : string -> R) (th ph : R) : R :=
    expansion_value f V (PI - evalR f (g_t0 g)) th (evalR f (g_p0 g)) ph.
  Lemma at_dir_syms f th ph s : free_scat s -> no_n s -> forall x, In x (scat_syms s) -> at_dir f th ph x = f x.
  Proof.
    intros F N x Hx. destruct (F x Hx) as [A B]; [intros ->; contradiction|]. now apply at_dir_other.
  Qed.
  Theorem fn_integral f th : no_n V -> no_n SRF ->
    is_RInt (fun ph => vol_exp f th ph * brdf_exp f th ph) 0 (2 * PI) (poly_at (map (evalR f) fns) (cos th)).
  Proof.
    intros NV NS. destruct fn_parts as (be & ve & nV' & nS' & EB & EV & H1 & H2 & Efn). rewrite HV in H1. rewrite HS in H2. inversion H1; inversion H2; subst nV' nS'.
    destruct (exp_shape _ _ _ _ dir_V V nV ve FV EV HV) as [DV OV]. destruct (exp_shape _ _ _ _ dir_S SRF nS be FS EB HS) as [DS OS].
    set (M := (nS + nV)%nat) in *. set (e := emul (emul (EMul (ENum 2) EPi) ve) be) in *.
    assert (De : D 0 (M - 2) (expand e)).
    { eapply D_cast; [apply D_emul; [apply D_emul; [apply D_free, free_2pi|exact DV]|exact DS]| |]; unfold M; lia. }
    assert (Oe : okx e). { apply okx_emul; [apply okx_emul; [apply okx_free, free_2pi|exact OV]|exact OS]. }
    pose proof (cf_expand_free e Oe) as Ce.
    assert (Sh : Forall (no_phi (M - 2)) (integrate_0_2pi_phis M (expand e))) by (apply integrate_shape; auto; unfold M; lia).
    assert (Val : poly_at (map (evalR f) fns) (cos th) = pval f 0 0 (sin th) (cos th) (integrate_0_2pi_phis M (expand e))).
    { rewrite Efn. rewrite (extract_val f 0 0 (sin th) (cos th) (nS + nV - 1) _ (M - 2)).
      - apply (repl_theta_val f 0 0 (sin th) (cos th) M (M - 2)); auto; [unfold M; lia|]. pose proof (sin2_cos2 th) as X. unfold Rsqr in X. lra.
      - apply repl_theta_shape; [unfold M; lia|assumption].
      - unfold M. lia. }
    rewrite Val. pose proof PI_RGT_0 as HPI.
    apply (is_ext (fun ph => / (2 * PI) * pval f (sin ph) (cos ph) (sin th) (cos th) (expand e))).
    - intros ph. rewrite <- (pval_free f th ph _ _ _ _ _ Ce).
      pose proof (expand_val (at_dir f th ph) e) as X. rewrite at_dir_theta, at_dir_phi in X. rewrite X. unfold e.
      rewrite !ev_emul, (ev_expansion _ _ _ _ _ _ _ EB NS), (ev_expansion _ _ _ _ _ _ _ EV NV).
      rewrite (expansion_value_ext (at_dir f th ph) f SRF) by (eauto using lexp_basic_members; now apply at_dir_syms).
      rewrite (expansion_value_ext (at_dir f th ph) f V) by (eauto using lexp_basic_members; now apply at_dir_syms).
      rewrite ev_esub, ev_eadd. destruct Fg as (A & B & C & F). rewrite (free_ev f th ph (g_t0 g) A), (free_ev f th ph (g_tex g) B), (free_ev f th ph (g_p0 g) C), (free_ev f th ph (g_pex g) F).
      cbn [evalR]. rewrite at_dir_theta, at_dir_phi, Q2R_lit. unfold vol_exp, brdf_exp. field. lra.
    - eapply is_val; [apply is_scale, (poly_int f (sin th) (cos th) M ltac:(unfold M; lia) (M - 2)); [lia|exact De]|]. field. lra.
  Qed.
  Theorem fn_wd f : no_n V -> no_n SRF -> ok_exp f V -> ok_exp f SRF ->
    wd f (g_t0 g) -> wd f (g_tex g) -> wd f (g_p0 g) -> wd f (g_pex g) -> Forall (wd f) fns.
  Proof.
    intros NV NS OV OS W1 W2 W3 W4. destruct fn_parts as (be & ve & nV' & nS' & EB & EV & H1 & H2 & Efn). rewrite HV in H1. rewrite HS in H2. inversion H1; inversion H2; subst nV' nS'.
    assert (Wp : wd f EPi) by exact I.
    assert (WS : wd f be). { eapply exp_wd; [| | | | | |exact EB|exact HS]; auto; try exact I. now apply wd_eadd. }
    assert (WV : wd f ve). { eapply exp_wd; [| | | | | |exact EV|exact HV]; auto; try exact I. now apply wd_esub. }
    destruct (exp_shape _ _ _ _ dir_V V nV ve FV EV HV) as [DV _]. destruct (exp_shape _ _ _ _ dir_S SRF nS be FS EB HS) as [DS _].
    set (e := emul (emul (EMul (ENum 2) EPi) ve) be) in *.
    assert (De : D 0 (nS + nV - 2) (expand e)).
    { eapply D_cast; [apply D_emul; [apply D_emul; [apply D_free, free_2pi|exact DV]|exact DS]| |]; lia. }
    assert (We : wd f e). { apply wd_emul; [apply wd_emul; [repeat split|assumption]|assumption]. }
    assert (Q : forall q, wd f (ENum q)) by (intros; exact I).
    rewrite Efn. apply (P_extract (wd f) Q (wd_emul f) (wd_eadd f) _ (nS + nV - 2)).
    - apply repl_theta_shape; [lia|]. apply integrate_shape; try lia. exact De.
    - apply cf_flat_map; [apply cf_repl_sin_theta; auto using wd_emul|]. apply cf_integrate; auto using wd_emul. now apply cf_expand_wd.
  Qed.
  Theorem fn_over (S : string -> Prop) : sub_syms S V -> sub_syms S SRF ->
    over S (g_t0 g) -> over S (g_tex g) -> over S (g_p0 g) -> over S (g_pex g) -> Forall (over S) fns.
  Proof.
    intros OV OS W1 W2 W3 W4. destruct fn_parts as (be & ve & nV' & nS' & EB & EV & H1 & H2 & Efn). rewrite HV in H1. rewrite HS in H2. inversion H1; inversion H2; subst nV' nS'.
    set (S' := fun s => S s \/ s = "theta_s" \/ s = "phi_s").
    assert (Up : forall x, over S x -> over S' x) by (intros x H s Hs; left; auto).
    assert (Ups : forall x, sub_syms S x -> sub_syms S' x) by (intros x H s Hs Hn; left; auto).
    assert (Wp : over S' EPi) by (intros s []).
    assert (WS : over S' be). { eapply exp_over; [| | | | |exact EB|exact HS]; auto; try (intros s [<-|[]]; unfold S'; auto). apply over_eadd; auto. }
    assert (WV : over S' ve). { eapply exp_over; [| | | | |exact EV|exact HV]; auto; try (intros s [<-|[]]; unfold S'; auto). apply over_esub; auto. }
    destruct (exp_shape _ _ _ _ dir_V V nV ve FV EV HV) as [DV OV']. destruct (exp_shape _ _ _ _ dir_S SRF nS be FS EB HS) as [DS OS'].
    set (e := emul (emul (EMul (ENum 2) EPi) ve) be) in *.
    assert (De : D 0 (nS + nV - 2) (expand e)).
    { eapply D_cast; [apply D_emul; [apply D_emul; [apply D_free, free_2pi|exact DV]|exact DS]| |]; lia. }
    assert (We : over S' e). { apply over_emul; [apply over_emul; [intros s []|assumption]|assumption]. }
    assert (Oe : okx e). { apply okx_emul; [apply okx_emul; [apply okx_free, free_2pi|exact OV']|exact OS']. }
    assert (Both : cf (fun x => over S' x /\ free x) (expand e)).
    { pose proof (cf_expand_over S' e We) as A. pose proof (cf_expand_free e Oe) as B. unfold cf in *. rewrite Forall_forall in *. intros m Hm. auto. }
    set (P := fun x => over S' x /\ free x).
    assert (Q : forall q, P (ENum q)) by (intros; split; [apply over_num|apply free_num]).
    assert (Qm : forall a b, P a -> P b -> P (emul a b)) by (intros a b [] []; split; [apply over_emul; auto|apply free_emul; auto]).
    assert (Qa : forall a b, P a -> P b -> P (eadd a b)) by (intros a b [] []; split; [apply over_eadd; auto|apply free_eadd; auto]).
    assert (G : Forall P fns).
    { rewrite Efn. apply (P_extract P Q Qm Qa _ (nS + nV - 2)).
      - apply repl_theta_shape; [lia|]. apply integrate_shape; try lia. exact De.
      - apply cf_flat_map; [apply cf_repl_sin_theta; auto|]. apply cf_integrate; auto. }
    eapply Forall_impl; [|exact G]. intros x [A [B C]] s Hs. destruct (A s Hs) as [X|[->| ->]]; [assumption|contradiction|contradiction].
  Qed.
End Fn.
(** when the coefficients can be computed *)
Theorem calc_fn_ok V SRF g nV nS : Forall is_basic (members V) -> Forall is_basic (members SRF) ->
  ncoefs V = Ok nV -> ncoefs SRF = Ok nS -> (0 < nV)%nat -> (0 < nS)%nat -> exists fns, calc_fn V SRF g = Ok fns.
Proof.
  intros BV BS HV HS PV PS. unfold calc_fn, calc_interaction_expansion.
  destruct (expansion_ok (ESym "theta_s") (g_tex g) (ESym "phi_s") (eadd (g_pex g) EPi) SRF nS BS HS (fun _ => PS)) as [be ->]. cbn [rbind].
  destruct (expansion_ok (esub EPi (g_t0 g)) (ESym "theta_s") (g_p0 g) (ESym "phi_s") V nV BV HV (fun _ => PV)) as [ve ->]. cbn [rbind].
  rewrite HV, HS. cbn [rbind]. eauto.
Qed.
