(** The two evaluation backends (sympy, symengine: helpers.py:19-92) compared on the same configuration:
    the elements of every intermediate result agree, the shapes may differ. *)
From Verif Require Export Properties20.
From Coq Require Import Lia List.
Open Scope string_scope.
Open Scope nat_scope.
Open Scope list_scope.

(** two configurations that differ at most in the backend *)
Record but_backend (C C' : config) (kw kw' : dict (nd xr)) : Prop := mk_but {
  bb_V : c_V C' = c_V C;
  bb_SRF : c_SRF C' = c_SRF C;
  bb_intQ : c_intQ C' = c_intQ C;
  bb_sig0 : c_sig0 C' = c_sig0 C;
  bb_dB : c_dB C' = c_dB C;
  bb_I0 : c_I0 C' = c_I0 C;
  bb_def : forall p, c_def C' p = c_def C p;
  bb_geom : c_geom C' = c_geom C;
  bb_read : forall a, p_read C' a = p_read C a;
  bb_kw : p_params C = Ok kw;
  bb_kw' : p_params C' = Ok kw';
  bb_get : forall s, dget kw s = dget kw' s
}.

(** ** The parameters tau, omega, NormBRDF, bsf *)
Definition like (a b : nd xr) : Prop := shp a = shp b /\ forall i, bget a i = bget b i.
Lemma like_refl a : like a a. Proof. split; auto. Qed.

Lemma lookup_own C kw l x : p_params C = Ok kw -> rmap (p_lookup (c_params C)) l = Ok x -> x = kw_of (val_or kw) l.
Proof.
  intros P. revert x. induction l as [|k l IH]; intros x H; cbn [rmap] in H; [apply ok_eq in H; now subst|].
  unfold p_lookup at 1 in H. rewrite (p_params_get C kw k P) in H. destruct (dget kw k) as [a|] eqn:E; [cbn [rbind] in H|discriminate].
  destruct (rmap _ l) as [y|]; [cbn [rbind] in H|discriminate]. apply ok_eq in H. subst x. cbn [kw_of map]. unfold kw_of in IH.
  rewrite (IH y eq_refl). unfold val_or. now rewrite E.
Qed.
Lemma p_call_like C C' kw kw' p e a b a' b' : but_backend C C' kw kw' -> (c_def C p = CStr e \/ c_def C p = CSym e) ->
  p_call C p e = Ok (a, b) -> p_call C' p e = Ok (a', b') ->
  like a a' /\ (shp a <> [] -> b = false /\ b' = false).
Proof.
  intros B D H H'. assert (Sy : p_symbs C' p = p_symbs C p) by (unfold p_symbs; now rewrite (bb_def _ _ _ _ B)).
  unfold p_call in H, H'. rewrite Sy in H'.
  destruct (lambdify (c_backend C) _ _ _) as [f|] eqn:L; [cbn [rbind] in H|discriminate].
  destruct (lambdify (c_backend C') _ _ _) as [f'|] eqn:L'; [cbn [rbind] in H'|discriminate].
  destruct (rmap _ _) as [x|] eqn:E in H; [cbn [rbind] in H|destruct (filter _ _) in H; discriminate].
  destruct (rmap _ _) as [x'|] eqn:E' in H'; [cbn [rbind] in H'|destruct (filter _ _) in H'; discriminate].
  destruct (call1 f [] x) as [v|] eqn:K in H; [|destruct (filter _ _) in H; discriminate].
  destruct (call1 f' [] x') as [v'|] eqn:K' in H'; [|destruct (filter _ _) in H'; discriminate].
  apply ok_eq in H, H'. apply (f_equal fst) in H as Ha. apply (f_equal snd) in H as Hb. apply (f_equal fst) in H' as Ha'. apply (f_equal snd) in H' as Hb'.
  cbn [fst snd] in Ha, Hb, Ha', Hb'. clear H H'. subst a b a' b'.
  rewrite (lookup_own _ _ _ _ (bb_kw _ _ _ _ B) E) in K. rewrite (lookup_own _ _ _ _ (bb_kw' _ _ _ _ B) E') in K'.
  assert (EK : kw_of (val_or kw') (p_symbs C p) = kw_of (val_or kw) (p_symbs C p)).
  { unfold kw_of. apply map_ext. intros s. unfold val_or. now rewrite (bb_get _ _ _ _ B). }
  rewrite EK in K'. clear EK E E'.
  destruct (lambdify_Ok _ _ _ _ _ L) as (-> & _). destruct (lambdify_Ok _ _ _ _ _ L') as (-> & _). cbn [c_be].
  destruct D as [D|D]; unfold p_symbs in K, K'; rewrite D in K, K'.
  - assert (X : forall be v, call1 (mk_comp be (free_syms e) [e]) [] (kw_of (val_or kw) (free_syms e)) = Ok v ->
       bc_shapes (map (fun k => shp (val_or kw k)) (syms e)) = Some (shp v) /\ forall i, bget v i = evalX (fun k => bget (val_or kw k) i) e).
    { intros be u Hu. assert (Nb : be = Symengine -> syms e <> []).
      { intros -> Z. unfold call1, call in Hu. cbn [c_be c_vars] in Hu. unfold free_syms in Hu at 1. rewrite Z in Hu. cbn [dedup] in Hu. discriminate. }
      pose proof (call_own (val_or kw) be e Nb) as CO. destruct (bc_shapes _) as [s|] eqn:Es.
      - destruct CO as (u' & E & <- & F). rewrite Hu in E. apply ok_eq in E. subst u'. auto.
      - rewrite Hu in CO. discriminate. }
    destruct (X _ _ K) as [S1 V1]. destruct (X _ _ K') as [S2 V2]. rewrite S1 in S2. injection S2 as S2. split.
    + split; [exact S2|]. intros i. now rewrite V1, V2.
    + intros N. rewrite <- S2. destruct (shp v); [congruence|]. destruct (c_backend C), (c_backend C'); auto.
  - (* a symbolic definition is called without arguments *)
    assert (X : forall be v, call1 (mk_comp be [] [e]) [] (kw_of (val_or kw) []) = Ok v -> be = Sympy /\ shp v = [] /\ forall i, bget v i = evalX (fun _ => NaN) e).
    { intros be u Hu. destruct be; [split; [reflexivity|]|discriminate].
      unfold call1, call in Hu. cbn [c_be c_vars c_exprs bind_sympy kw_of map dkeys length skipn rmap rbind Nat.ltb Nat.leb forallb negb app] in Hu.
      destruct (subset_b _ _) eqn:Sb; [|discriminate]. apply subset_b_incl in Sb. unfold all_syms in Sb. cbn [flat_map] in Sb. rewrite app_nil_r in Sb.
      assert (Se : syms e = []) by (destruct (syms e) as [|z l]; [reflexivity|destruct (Sb z (or_introl eq_refl))]).
      cbn [rmap] in Hu. unfold eval_sympy in Hu. rewrite Se in Hu. cbn [map bc_shapes fold_left rbind] in Hu. apply ok_eq in Hu. subst u.
      split; [reflexivity|]. intros i. rewrite bget_mk. apply evalX_ext. intros s Hs. rewrite Se in Hs. destruct Hs. }
    destruct (X _ _ K) as (Eb & S1 & V1). destruct (X _ _ K') as (Eb' & S2 & V2). split; [|congruence].
    split; [congruence|]. intros i. now rewrite V1, V2.
Qed.
Lemma p_eval_like C C' kw kw' p a b a' b' : but_backend C C' kw kw' ->
  p_eval C p = Ok (a, b) -> p_eval C' p = Ok (a', b') ->
  like a a' /\ ((exists v n, c_def C p = CVal v n) \/ shp a <> [] -> b = b').
Proof.
  intros B H H'. unfold p_eval in H, H'. rewrite (bb_def _ _ _ _ B) in H'. destruct (c_def C p) as [e|e|v n] eqn:D.
  - destruct (p_call_like _ _ _ _ _ _ _ _ _ _ B (or_introl D) H H') as [L N]. split; [exact L|].
    intros [(v & n & X)|X]; [discriminate|]. destruct (N X). congruence.
  - destruct (p_call_like _ _ _ _ _ _ _ _ _ _ B (or_intror D) H H') as [L N]. split; [exact L|].
    intros [(v & n & X)|X]; [discriminate|]. destruct (N X). congruence.
  - destruct v as [v|]; [cbn [rbind] in H, H'|discriminate]. apply ok_eq in H, H'. injection H as <- <-. injection H' as <- <-.
    split; [apply like_refl|reflexivity].
Qed.
Lemma p_val_like C C' kw kw' p a a' : but_backend C C' kw kw' -> p_val C p = Ok a -> p_val C' p = Ok a' -> like a a'.
Proof.
  intros B H H'. destruct (p_val_ex _ _ _ H) as (b & E). destruct (p_val_ex _ _ _ H') as (b' & E').
  exact (proj1 (p_eval_like _ _ _ _ _ _ _ _ _ B E E')).
Qed.

(** ** The distribution functions *)
Lemma p_scat_like C C' kw kw' x v v' : but_backend C C' kw kw' -> p_scat C x = Ok v -> p_scat C' x = Ok v' ->
  forall i, bget v i = bget v' i.
Proof.
  intros B H H' i. destruct (p_scat_el _ _ _ H) as (t0 & tex & p0 & pex & d & s & R1 & R2 & R3 & R4 & Rk & Rs & _ & E).
  destruct (p_scat_el _ _ _ H') as (t0' & tex' & p0' & pex' & d' & s' & R1' & R2' & R3' & R4' & Rk' & Rs' & _ & E').
  rewrite (bb_read _ _ _ _ B) in R1', R2', R3', R4'. rewrite R1 in R1'. rewrite R2 in R2'. rewrite R3 in R3'. rewrite R4 in R4'.
  apply ok_eq in R1', R2', R3', R4'. subst t0' tex' p0' pex'.
  rewrite (bb_kw _ _ _ _ B) in Rk. rewrite (bb_kw' _ _ _ _ B) in Rk'. apply ok_eq in Rk, Rk'. subst d d'.
  assert (s' = s). { destruct x; rewrite ?(bb_V _ _ _ _ B), ?(bb_SRF _ _ _ _ B) in Rs'; rewrite Rs in Rs'; now apply ok_eq in Rs'. } subst s'.
  rewrite E, E'. apply evalX_ext. intros y _. unfold env_at. now rewrite (bb_get _ _ _ _ B).
Qed.
(** a function compiled by symengine returns an array to which all its arguments can be broadcast *)
Lemma p_scat_carries C x v t0 tex p0 pex kw : c_backend C = Symengine -> p_scat C x = Ok v ->
  p_read C T0 = Ok t0 -> p_read C TEx = Ok tex -> p_read C P0 = Ok p0 -> p_read C PEx = Ok pex -> p_params C = Ok kw ->
  NoDup (dkeys kw) -> Forall (fun a => ble (shp a) (shp v)) ([t0; tex; p0; pex] ++ dvals kw).
Proof.
  intros Hb H R1 R2 R3 R4 Rk N. unfold p_scat in H. rewrite R1, R2, R3, R4, Rk in H. cbn [rbind] in H.
  destruct (match x with WV => c_V C | WSRF => c_SRF C end) as [s|]; [cbn [rbind] in H|discriminate].
  destruct (lambdify _ _ _ _) as [f|] eqn:L; [cbn [rbind] in H|discriminate]. destruct (lambdify_Ok _ _ _ _ _ L) as (-> & _).
  rewrite Hb in H. unfold call1, call in H. cbn [c_be c_vars c_exprs angle_names app] in H.
  change (["theta_0"; "theta_ex"; "phi_0"; "phi_ex"] ++ dkeys kw) with (angle_names ++ dkeys kw) in H.
  change ("theta_0" :: "theta_ex" :: "phi_0" :: "phi_ex" :: dkeys kw) with (angle_names ++ dkeys kw) in H.
  rewrite (bind_symengine_full angle_names [t0; tex; p0; pex] kw eq_refl N) in H.
  unfold broadcast_arrays in H. destruct (bc_shapes _) as [s'|] eqn:Es in H; [|discriminate]. cbn [rbind map app] in H. unfold eval_symengine in H.
  cbn [shp] in H. apply ok_eq in H. subst v. cbn [shp]. apply Forall_forall. intros a Ha. apply bc_shapes_in in Es. rewrite Forall_forall in Es. apply Es. now apply in_map.
Qed.
Lemma p_scat_fits C T x v t0 tex p0 pex kw : p_scat C x = Ok v ->
  p_read C T0 = Ok t0 -> p_read C TEx = Ok tex -> p_read C P0 = Ok p0 -> p_read C PEx = Ok pex -> p_params C = Ok kw ->
  NoDup (dkeys kw) -> Forall (fun a => ble (shp a) T) ([t0; tex; p0; pex] ++ dvals kw) -> ble (shp v) T.
Proof.
  intros H R1 R2 R3 R4 Rk N F. pose proof H as H0. destruct (p_scat_el _ _ _ H) as (t0' & tex' & p0' & pex' & d & s & Q1 & Q2 & Q3 & Q4 & Qk & Qs & I & _).
  rewrite Rk in Qk. apply ok_eq in Qk. subst d.
  unfold p_scat in H0. rewrite R1, R2, R3, R4, Rk, Qs in H0. cbn [rbind] in H0.
  destruct (lambdify _ _ _ _) as [f|] eqn:L; [cbn [rbind] in H0|discriminate]. destruct (lambdify_Ok _ _ _ _ _ L) as (-> & _).
  destruct (call_total T (mk_comp (c_backend C) (angle_names ++ dkeys kw) [phase_function s]) angle_names [t0; tex; p0; pex] kw) as (l & E & Ll & Fl); try reflexivity; auto.
  - discriminate.
  - unfold all_syms. cbn [c_exprs flat_map c_vars]. rewrite app_nil_r. exact I.
  - unfold call1 in H0. rewrite E in H0. cbn [rbind] in H0. destruct l as [|a [|]]; try discriminate. apply ok_eq in H0. subst a. now inversion Fl.
Qed.

(** ** The contributions *)
Section Contributions.
  Context (C C' : config) (kw kw' : dict (nd xr)).
  Hypothesis (B : but_backend C C' kw kw').
  Ltac same_val H H' := rewrite H in H'; apply ok_eq in H'; subst.
  Lemma inputs_like i0 mu0 muex tau i0' mu0' muex' tau' : p_inputs C i0 mu0 muex tau -> p_inputs C' i0' mu0' muex' tau' ->
    i0' = i0 /\ mu0' = mu0 /\ muex' = muex /\ like tau tau'.
  Proof.
    intros (I & M & X & T) (I' & M' & X' & T').
    rewrite (bb_I0 _ _ _ _ B), I in I'. unfold p_mu0, p_muex in *. rewrite (bb_read _ _ _ _ B), M in M'. rewrite (bb_read _ _ _ _ B), X in X'.
    apply ok_eq in I', M', X'. repeat split; auto; eapply (proj1 (p_val_like _ _ _ _ _ _ _ B T T')) || eapply (proj2 (p_val_like _ _ _ _ _ _ _ B T T')).
  Qed.
  Lemma surface_like s s' : p_surface C = Ok s -> p_surface C' = Ok s' -> forall i, bget s i = bget s' i.
  Proof.
    intros H H' i. destruct (p_surface_inv _ _ H) as (i0 & mu0 & muex & tau & srf & norm & bsf & In & Sc & No & Bs & K).
    destruct (p_surface_inv _ _ H') as (i0' & mu0' & muex' & tau' & srf' & norm' & bsf' & In' & Sc' & No' & Bs' & K').
    destruct (inputs_like _ _ _ _ _ _ _ _ In In') as (-> & -> & -> & _ & Lt).
    rewrite (k_surface_el _ _ _ _ _ _ _ _ i K), (k_surface_el _ _ _ _ _ _ _ _ i K').
    now rewrite Lt, (p_scat_like _ _ _ _ _ _ _ B Sc Sc' i), (proj2 (p_val_like _ _ _ _ _ _ _ B No No') i), (proj2 (p_val_like _ _ _ _ _ _ _ B Bs Bs') i).
  Qed.
  Lemma volume_like s s' : p_volume C = Ok s -> p_volume C' = Ok s' -> forall i, bget s i = bget s' i.
  Proof.
    intros H H' i. destruct (p_volume_inv _ _ H) as (i0 & mu0 & muex & tau & srf & norm & bsf & In & Sc & No & Bs & K).
    destruct (p_volume_inv _ _ H') as (i0' & mu0' & muex' & tau' & srf' & norm' & bsf' & In' & Sc' & No' & Bs' & K').
    destruct (inputs_like _ _ _ _ _ _ _ _ In In') as (-> & -> & -> & _ & Lt).
    rewrite (k_volume_el _ _ _ _ _ _ _ _ i K), (k_volume_el _ _ _ _ _ _ _ _ i K').
    now rewrite Lt, (p_scat_like _ _ _ _ _ _ _ B Sc Sc' i), (proj2 (p_val_like _ _ _ _ _ _ _ B No No') i), (proj2 (p_val_like _ _ _ _ _ _ _ B Bs Bs') i).
  Qed.
  Lemma interaction_like fe fe' s s' : 
    (forall first a a', p_Fint C fe first = Ok a -> p_Fint C' fe' first = Ok a' -> forall i, bget a i = bget a' i) ->
    p_interaction C fe = Ok s -> p_interaction C' fe' = Ok s' -> forall i, bget s i = bget s' i.
  Proof.
    intros HF H H' i. destruct (p_interaction_inv _ _ _ H) as (i0 & mu0 & muex & tau & om & norm & bsf & f1 & f2 & In & F1 & F2 & Om & No & Bs & K).
    destruct (p_interaction_inv _ _ _ H') as (i0' & mu0' & muex' & tau' & om' & norm' & bsf' & f1' & f2' & In' & F1' & F2' & Om' & No' & Bs' & K').
    destruct (inputs_like _ _ _ _ _ _ _ _ In In') as (-> & -> & -> & _ & Lt).
    rewrite (k_interaction_el _ _ _ _ _ _ _ _ _ _ i K), (k_interaction_el _ _ _ _ _ _ _ _ _ _ i K').
    now rewrite Lt, (HF _ _ _ F1 F1' i), (HF _ _ _ F2 F2' i), (proj2 (p_val_like _ _ _ _ _ _ _ B Om Om') i), (proj2 (p_val_like _ _ _ _ _ _ _ B No No') i), (proj2 (p_val_like _ _ _ _ _ _ _ B Bs Bs') i).
  Qed.
  (** under symengine the surface contribution has at least as many axes *)
  Lemma surface_ble s s' : NoDup (dkeys kw) -> NoDup (dkeys kw') -> c_backend C' = Symengine ->
    p_surface C = Ok s -> p_surface C' = Ok s' -> ble (shp s) (shp s').
  Proof.
    intros N N' Hb H H'. destruct (p_surface_inv _ _ H) as (i0 & mu0 & muex & tau & srf & norm & bsf & In & Sc & No & Bs & K).
    destruct (p_surface_inv _ _ H') as (i0' & mu0' & muex' & tau' & srf' & norm' & bsf' & In' & Sc' & No' & Bs' & K').
    destruct (inputs_like _ _ _ _ _ _ _ _ In In') as (-> & -> & -> & St & _).
    destruct (k_surface_ble _ _ _ _ _ _ _ _ K') as (K1 & K2 & K3 & K4 & K5 & K6 & K7).
    destruct (p_scat_el _ _ _ Sc') as (t0 & tex & p0 & pex & d & sf & R1 & R2 & R3 & R4 & Rk & _).
    rewrite (bb_kw' _ _ _ _ B) in Rk. apply ok_eq in Rk. subst d.
    pose proof (p_scat_carries _ _ _ _ _ _ _ _ Hb Sc' R1 R2 R3 R4 (bb_kw' _ _ _ _ B) N') as F.
    rewrite (bb_read _ _ _ _ B) in R1, R2, R3, R4.
    assert (Bs1 : ble (shp srf) (shp srf')).
    { eapply p_scat_fits; [exact Sc|exact R1|exact R2|exact R3|exact R4|exact (bb_kw _ _ _ _ B)|exact N|].
      rewrite Forall_forall in F |- *. intros a Ha. apply F. rewrite in_app_iff in Ha |- *. destruct Ha as [Ha|Ha]; [now left|right].
      destruct (in_dvals _ _ Ha) as (k & Hk). apply (dget_own _ N) in Hk. rewrite (bb_get _ _ _ _ B) in Hk.
      clear -Hk. induction kw' as [|[k' b] l IH]; [discriminate|]. cbn [dget] in Hk. destruct (String.eqb k k'); [injection Hk as ->; now left|right; auto]. }
    destruct (k_surface_total (shp s') i0 mu0 muex srf tau norm bsf) as (c & Ec & Fc).
    - assumption.
    - assumption.
    - assumption.
    - eapply ble_trans; eassumption.
    - now rewrite St.
    - now rewrite (proj1 (p_val_like _ _ _ _ _ _ _ B No No')).
    - now rewrite (proj1 (p_val_like _ _ _ _ _ _ _ B Bs Bs')).
    - rewrite K in Ec. apply ok_eq in Ec. now subst c.
  Qed.
End Contributions.

(** ** NaN-replacement *)
Lemma proj_onto s t i j0 : ble s t -> valid_idx t j0 -> valid_idx s i -> exists j, valid_idx t j /\ proj s j = i.
Proof.
  revert t i j0. induction s as [|d s IH]; intros t i j0 Hb Hj Hi.
  - exists j0. split; [exact Hj|]. destruct i; [now destruct j0|destruct Hi].
  - destruct t as [|e t]; [apply ble_nil_r in Hb; discriminate|]. apply ble_cons in Hb. destruct Hb as [Hd Hb].
    destruct i as [|i0 is]; [destruct Hi|]. destruct j0 as [|j1 js]; [destruct Hj|]. destruct Hi as [Hi0 His]. destruct Hj as [Hj1 Hjs].
    destruct (IH t is js Hb Hjs His) as (j & Vj & Pj). destruct (Nat.eq_dec d 1) as [->|Nd].
    + exists (j1 :: j). split; [split; assumption|]. cbn [proj tl hd]. rewrite Pj. cbn. f_equal. lia.
    + assert (d = e) by tauto. subst e. exists (i0 :: j). split; [split; assumption|]. cbn [proj tl hd]. rewrite Pj. destruct (Nat.eqb_spec d 1); [contradiction|reflexivity].
Qed.

Lemma any_ex {A} (p : A -> bool) (a : nd A) : nd_any (map1 p a) = true <-> exists i, valid_idx (shp a) i /\ p (get a i) = true.
Proof.
  unfold nd_any. rewrite existsb_exists. cbn [shp map1 get]. split; intros (i & H1 & H2); exists i; [rewrite all_idx_valid in H1|rewrite all_idx_valid]; auto.
Qed.
Lemma bool_eq a b : (a = true <-> b = true) -> a = b. Proof. destruct a, b; intuition congruence. Qed.
Lemma fix_nan_like ii ii' tau tau' r r' : (forall i, bget ii i = bget ii' i) -> like tau tau' -> ble (shp ii) (shp ii') -> ble (shp tau) (shp ii) ->
  k_fix_nan ii tau = Ok r -> k_fix_nan ii' tau' = Ok r' -> shp r = shp ii /\ shp r' = shp ii' /\
  forall i, valid_idx (shp ii') i -> bget r i = bget r' i.
Proof.
  intros E (St & Et) Bl Bt H H'.
  assert (Sh : forall x t y, k_fix_nan x t = Ok y -> shp y = shp x) by (intros x t y K; apply (k_fix_nan_spec _ _ _ K)).
  split; [eauto|]. split; [eauto|]. intros i Hi.
  assert (Bt' : ble (shp tau') (shp ii')) by (rewrite <- St; eapply ble_trans; eassumption).
  assert (Val : forall j, valid_idx (shp ii') j -> get ii (proj (shp ii) j) = get ii' j).
  { intros j Hj. rewrite <- (bget_valid ii') by exact Hj. rewrite <- E. reflexivity. }
  assert (A : nd_any (map1 xis_nan ii) = nd_any (map1 xis_nan ii')).
  { apply bool_eq. rewrite !any_ex. split; intros (j & Vj & Nj).
    - destruct (proj_onto _ _ j i Bl Hi Vj) as (j' & Vj' & <-). exists j'. split; [exact Vj'|]. now rewrite <- Val.
    - exists (proj (shp ii) j). split; [eapply valid_proj; eassumption|]. now rewrite Val. }
  unfold k_fix_nan in H, H'. rewrite A in H. destruct (nd_any (map1 xis_nan ii')).
  2:{ apply ok_eq in H, H'. subst r r'. apply E. }
  destruct (map2 Bool.eqb (map1 xis_nan ii) _) as [sa|] eqn:Ea; [cbn [rbind] in H|discriminate].
  destruct (map2 Bool.eqb (map1 xis_nan ii') _) as [sb|] eqn:Eb; [cbn [rbind] in H'|discriminate].
  assert (Sa : shp sa = shp ii). { apply shp_map2 in Ea. cbn [shp map1] in Ea. rewrite bc_shape_comm in Ea. unfold ble in Bt. congruence. }
  assert (Sb : shp sb = shp ii'). { apply shp_map2 in Eb. cbn [shp map1] in Eb. rewrite bc_shape_comm in Eb. unfold ble in Bt'. congruence. }
  assert (Eab : forall j, bget sa j = bget sb j).
  { intros j. rewrite (bget_map2 _ _ _ _ j Ea), (bget_map2 _ _ _ _ j Eb), !bget_map1. now rewrite E, Et. }
  assert (L : nd_all sa = nd_all sb).
  { apply bool_eq. unfold nd_all. rewrite !forallb_forall. split; intros Hall j Hj; rewrite all_idx_valid in Hj.
    - rewrite <- bget_valid by exact Hj. rewrite <- Eab. unfold bget. apply Hall. rewrite all_idx_valid. rewrite Sb in Hj. rewrite Sa. eapply valid_proj; eassumption.
    - rewrite Sa in Hj. destruct (proj_onto _ _ j i Bl Hi Hj) as (j' & Vj' & <-). specialize (Hall j'). rewrite all_idx_valid, Sb in Hall. specialize (Hall Vj').
      rewrite <- Sa. change (bget sa j' = true). rewrite Eab, bget_valid by now rewrite Sb. exact Hall. }
  rewrite L in H. destruct (nd_all sb); apply ok_eq in H, H'; subst r r'; [|apply E]. rewrite !bget_map1, E. reflexivity.
Qed.

Lemma row_shp a s n k : shp a = s ++ [n] -> shp (row a k) = s.
Proof. intros H. unfold row. cbn [shp]. rewrite H. apply removelast_last. Qed.
Lemma row_bget a s n k i : shp a = s ++ [n] -> bget (row a k) i = get a (proj s i ++ [k]).
Proof. intros H. unfold bget, row. cbn [shp get]. now rewrite H, removelast_last. Qed.
Lemma off_like C C' tau tau' b : like tau tau' -> (b = true -> shp tau = []) -> off C tau b = off C' tau' b.
Proof.
  intros (S & E) Hb. unfold off. destruct b; [|reflexivity]. specialize (E []). unfold bget in E. rewrite <- S, Hb in E by reflexivity. cbn [proj] in E. now rewrite E.
Qed.

(** ** calc() *)
Section Calc.
  Context (C C' : config) (kw kw' : dict (nd xr)) (fe fe' : res (option compiled)).
  Hypothesis (B : but_backend C C' kw kw').
  Hypothesis (HF : c_intQ C = true -> forall first a a', p_Fint C fe first = Ok a -> p_Fint C' fe' first = Ok a' -> forall i, bget a i = bget a' i).
  (** a number is a scalar; otherwise the optical depth has an axis *)
  Hypothesis (Num : forall v, c_def C Tau = CVal (Ok v) true -> shp v = []).
  Hypothesis (HT : (exists v n, c_def C Tau = CVal v n) \/ forall t, p_val C Tau = Ok t -> shp t <> []).
  Lemma calc_like a a' : p_calc C fe = Ok a -> p_calc C' fe' = Ok a' -> ble (shp (row a 0)) (shp (row a' 0)) ->
    nrows a = nrows a' /\
    forall k i, k < nrows a' -> valid_idx (shp (row a' k)) i -> bget (row a k) i = get (row a' k) i.
  Proof.
    intros H H' Bl.
    destruct (p_calc_rows _ _ _ H) as (tau & b & is & i0 & mu0 & iv & ii & Et & Es & Ei & Em & B1 & B2 & Sv & Hv & Hi & Sa & G).
    destruct (p_calc_rows _ _ _ H') as (tau' & b' & is' & i0' & mu0' & iv' & ii' & Et' & Es' & Ei' & Em' & B1' & B2' & Sv' & Hv' & Hi' & Sa' & G').
    rewrite (row_shp _ _ _ _ Sa), (row_shp _ _ _ _ Sa') in Bl.
    destruct (p_eval_like _ _ _ _ _ _ _ _ _ B Et Et') as [Lt Lb].
    assert (b' = b).
    { symmetry. apply Lb. destruct HT as [X|X]; [now left|right]. apply X. now apply (p_val_eval _ _ _ b). }
    subst b'.
    assert (Hb : b = true -> shp tau = []).
    { intros ->. unfold p_eval in Et. destruct (c_def C Tau) as [e|e|v n] eqn:D.
      - destruct HT as [(v & n & X)|X]; [discriminate|]. exfalso. specialize (X tau (p_val_eval _ _ _ _ ltac:(unfold p_eval; rewrite D; exact Et))).
        unfold p_call in Et. repeat match type of Et with rbind ?z _ = _ => destruct z eqn:?; [cbn [rbind] in Et|discriminate Et] end.
        match type of Et with match ?z with _ => _ end = _ => destruct z as [y|] eqn:?; [|destruct (filter _ _); discriminate Et] end.
        apply ok_eq in Et. apply (f_equal snd) in Et as E2. apply (f_equal fst) in Et. cbn [fst snd] in Et, E2. subst y. destruct (c_be _); [|discriminate]. destruct (shp tau); congruence.
      - destruct HT as [(v & n & X)|X]; [discriminate|]. exfalso. specialize (X tau (p_val_eval _ _ _ _ ltac:(unfold p_eval; rewrite D; exact Et))).
        unfold p_call in Et. repeat match type of Et with rbind ?z _ = _ => destruct z eqn:?; [cbn [rbind] in Et|discriminate Et] end.
        match type of Et with match ?z with _ => _ end = _ => destruct z as [y|] eqn:?; [|destruct (filter _ _); discriminate Et] end.
        apply ok_eq in Et. apply (f_equal snd) in Et as E2. apply (f_equal fst) in Et. cbn [fst snd] in Et, E2. subst y. destruct (c_be _); [|discriminate]. destruct (shp tau); congruence.
      - destruct v as [v|]; [cbn [rbind] in Et|discriminate]. apply ok_eq in Et. apply (f_equal snd) in Et as E2. apply (f_equal fst) in Et. cbn [fst snd] in Et, E2. subst v n.
        now apply Num. }
    pose proof (off_like C C' tau tau' b Lt Hb) as Eo. rewrite <- Eo in Hv', Hi'. clear Eo.
    rewrite (bb_I0 _ _ _ _ B), Ei in Ei'. apply ok_eq in Ei'. subst i0'.
    assert (mu0' = mu0). { unfold p_mu0 in Em'. rewrite (bb_read _ _ _ _ B) in Em'. unfold p_mu0 in Em. rewrite Em in Em'. now apply ok_eq in Em'. } subst mu0'.
    assert (En : nrow C' = nrow C) by (unfold nrow; now rewrite (bb_intQ _ _ _ _ B)).
    assert (Nr : nrows a = nrow C) by (unfold nrows; rewrite Sa; apply last_last).
    assert (Nr' : nrows a' = nrow C) by (unfold nrows; rewrite Sa', En; apply last_last).
    split; [congruence|]. intros k i Hk Hval. rewrite (row_shp _ _ _ _ Sa') in Hval. rewrite (row_bget _ _ _ _ _ Sa). change (get (row a' k) i) with (get a' (i ++ [k])).
    pose proof (valid_proj _ _ _ Bl Hval) as Hvp.
    destruct (G _ Hvp) as (G1 & G2 & G3 & G0). destruct (G' _ Hval) as (G1' & G2' & G3' & G0').
    assert (Ebi : bget i0 (proj (shp is) i) = bget i0 i) by (apply bget_proj, ble_sub, B1).
    assert (Ebm : bget mu0 (proj (shp is) i) = bget mu0 i) by (apply bget_proj, ble_sub, B2).
    rewrite Ebi, Ebm in G1, G2, G3, G0. rewrite (bb_sig0 _ _ _ _ B), (bb_dB _ _ _ _ B) in G1', G2', G3', G0'. rewrite (bb_intQ _ _ _ _ B) in Hi', G3', G0'.
    assert (V1 : get is (proj (shp is) i) = get is' i).
    { rewrite <- (bget_valid is') by exact Hval. rewrite <- (surface_like _ _ _ _ B _ _ Es Es' i). reflexivity. }
    assert (V2 : get iv (proj (shp is) i) = get iv' i).
    { destruct (off C tau b); [now rewrite Hv, Hv'|]. rewrite <- (bget_valid iv') by now rewrite Sv'. rewrite <- (volume_like _ _ _ _ B _ _ Hv Hv' i). unfold bget. now rewrite Sv. }
    assert (V3 : c_intQ C = true -> get ii (proj (shp is) i) = get ii' i).
    { intros Q. destruct (Hi Q) as [Si Ii]. destruct (Hi' Q) as [Si' Ii']. specialize (HF Q). destruct (off C tau b); [now rewrite Ii, Ii'|].
      rewrite <- (bget_valid ii') by now rewrite Si'. destruct b.
      - rewrite <- (interaction_like _ _ _ _ B _ _ _ _ HF Ii Ii' i). unfold bget. now rewrite Si.
      - destruct Ii as (x & Ix & Fx). destruct Ii' as (x' & Ix' & Fx').
        pose proof (interaction_like _ _ _ _ B _ _ _ _ HF Ix Ix') as Lx.
        destruct (p_interaction_inv _ _ _ Ix) as (i0' & mu0' & muex & tau2 & om & norm & bsf & f1 & f2 & (_ & _ & _ & Pt) & _ & _ & _ & _ & _ & K).
        rewrite (p_val_eval _ _ _ _ Et) in Pt. apply ok_eq in Pt. subst tau2.
        assert (Bt : ble (shp tau) (shp x)) by apply (k_interaction_ble _ _ _ _ _ _ _ _ _ _ K).
        assert (Sx : shp ii = shp x) by apply (k_fix_nan_spec _ _ _ Fx). assert (Sx' : shp ii' = shp x') by apply (k_fix_nan_spec _ _ _ Fx').
        destruct (fix_nan_like x x' tau tau' ii ii' Lx Lt) as (_ & _ & E); auto; [congruence|].
        rewrite <- E by congruence. unfold bget. now rewrite Si. }
    assert (Kc : k = 0 \/ k = 1 \/ k = 2 \/ k = 3 /\ c_intQ C = true).
    { rewrite Nr' in Hk. unfold nrow in Hk. destruct (c_intQ C); lia. }
    destruct Kc as [->|[->|[->|[-> Q]]]].
    - rewrite G0, G0', V1, V2. destruct (c_intQ C) eqn:Q; [rewrite V3 by reflexivity|]; reflexivity.
    - now rewrite G1, G1', V1.
    - now rewrite G2, G2', V2.
    - rewrite (G3 Q), (G3' Q), (V3 Q). reflexivity.
  Qed.
  Lemma calc_ble a a' : NoDup (dkeys kw) -> NoDup (dkeys kw') -> c_backend C' = Symengine ->
    p_calc C fe = Ok a -> p_calc C' fe' = Ok a' -> ble (shp (row a 0)) (shp (row a' 0)).
  Proof.
    intros N N' Hb H H'.
    destruct (p_calc_rows _ _ _ H) as (tau & b & is & i0 & mu0 & iv & ii & _ & Es & _ & _ & _ & _ & _ & _ & _ & Sa & _).
    destruct (p_calc_rows _ _ _ H') as (tau' & b' & is' & i0' & mu0' & iv' & ii' & _ & Es' & _ & _ & _ & _ & _ & _ & _ & Sa' & _).
    rewrite (row_shp _ _ _ _ Sa), (row_shp _ _ _ _ Sa'). exact (surface_ble _ _ _ _ B _ _ N N' Hb Es Es').
  Qed.
End Calc.

(** ** The interaction integrals *)
(** _calc.py:1089-1141 element by element; with one coefficient each there are two coefficient functions and one
    power of the cosine *)
Definition fint_at (n : nat) (fs : list xr) (mu tau : xr) : xr :=
  if n =? 1 then match fs with
                 | [x; y] => let m := xmul (xpow mu 1) (x_S2 mu tau 0) in xadd (xmul x m) (xadd (xmul y m) (Fin 0%R))
                 | _ => NaN
                 end
  else x_Fint fs mu tau.
Section Fint.
  Context (w : world) (q : op) (o : nat) (r : rt1).
  Hypothesis (G : good w q) (Hr : obj (w_heap w) o = Ok r) (FI : Finv (w_heap w)).
  Hypothesis (N1 : r_fn_input r = None) (N2 : r_fnevals_input r = None) (FL : flat w o).
  Notation C := (conf (w_heap w) r).
  Notation fe := (fnev_next (w_heap w) r).
  Lemma Fint_form first a : p_Fint C fe first = Ok a ->
    exists V SRF fns n t0 p0 tex pex kw mu tau, c_V C = Ok V /\ c_SRF C = Ok SRF /\ calc_fn V SRF (r_geom r) = Ok fns /\ p_nmax C = Ok n /\
      p_read C T0 = Ok t0 /\ p_read C P0 = Ok p0 /\ p_read C TEx = Ok tex /\ p_read C PEx = Ok pex /\ p_params C = Ok kw /\
      (if first then p_mu0 C else p_muex C) = Ok mu /\ p_val C Tau = Ok tau /\
      forall i, bget a i = fint_at n (map (evalX (dir_env first t0 tex p0 pex kw i)) fns) (bget mu i) (bget tau i).
  Proof.
    intros H.
    assert (K : exists k, fe = Ok (Some k)).
    { unfold p_Fint in H. repeat match type of H with rbind ?z _ = _ => destruct z eqn:?; [cbn [rbind] in H|discriminate H] end.
      match type of H with match ?z with _ => _ end = _ => destruct z; [eauto|discriminate H] end. }
    destruct K as [k Ek]. rewrite Ek in H.
    destruct (fnev_next_src _ _ _ FI (ex_intro _ o Hr) N2 Ek) as (seng & ks & ex & fns & L & Kp & Src).
    unfold fn_src in Src. rewrite N1 in Src. destruct Src as (V & SRF & EV & ES & Ef).
    assert (Kp' : dkeys (c_params C) = ks ++ ex) by (rewrite <- Kp; apply dkeys_map).
    destruct (Fint_inv _ _ _ _ _ _ _ _ H L Kp') as (t0 & p0 & tex & pex & kw & n & mu & mux & tau & fv & R1 & R2 & R3 & R4 & Rk & Rn & Rm & Rx & Rt & Kf & _ & Inc & Rr & Rf & F2).
    exists V, SRF, fns, n, t0, p0, tex, pex, kw, mu, tau.
    do 11 (split; [assumption|]).
    assert (Hc : at_conf w o C fe) by (exists r; auto).
    assert (Nn : exists nV nS, ncoefs V = Ok nV /\ ncoefs SRF = Ok nS /\ n = nV + nS - 1).
    { unfold p_nmax in Rn. cbn [conf c_V c_SRF] in Rn. rewrite EV, ES in Rn. cbn [rbind] in Rn. destruct (ncoefs V) as [nV|]; [|discriminate]. destruct (ncoefs SRF) as [nS|]; [|discriminate].
      cbn [rbind] in Rn. apply ok_eq in Rn. eauto. }
    destruct Nn as (nV & nS & HnV & HnS & En).
    assert (Lf : length fns = Nat.max 2 (nS + nV - 1)).
    { destruct (fn_parts V SRF (r_geom r) fns Ef) as (be & ve & nV' & nS' & _ & _ & H1 & H2 & Hf). rewrite HnV in H1. rewrite HnS in H2.
      apply ok_eq in H1, H2. rewrite Hf, H1, H2. apply extract_length. }
    destruct (k_mux_shp _ _ _ Rx) as [Nz _].
    destruct FL as (m & L1 & L2 & L3 & L4).
    assert (A1 : ranks m (t0 :: p0 :: tex :: pex :: dvals kw)).
    { intros z [<-|[<-|[<-|[<-|Hz]]]]; try (eapply L1, (c_angle w q o _ _ G Hc); eassumption).
      unfold dvals in Hz. apply in_map_iff in Hz. destruct Hz as ((k0 & a0) & <- & Hz). eapply L3; [apply (c_dict w q o _ _ G Hc); exact Rk|exact Hz]. }
    assert (Lt : length (shp t0) = m /\ length (shp tex) = m).
    { destruct L4 as [->|[L4 _]].
      - pose proof (read_rank _ _ _ _ R1). pose proof (read_rank _ _ _ _ R3). pose proof (A1 t0) as X. pose proof (A1 tex) as Y. simpl in X, Y. intuition lia.
      - split; apply L4; [left|right]; now apply (c_angle w q o _ _ G Hc). }
    destruct Lt as [Lt0 Ltex]. assert (Lm : 1 <= m) by (pose proof (read_rank _ _ _ _ R1); lia).
    assert (Lmu : length (shp mu) = m).
    { destruct first; [unfold p_mu0 in Rm; rewrite R1 in Rm|unfold p_muex in Rm; rewrite R3 in Rm]; cbn [rbind] in Rm; apply ok_eq in Rm; subst mu; assumption. }
    assert (Ltau : length (shp tau) <= length (shp mu)) by (rewrite Lmu; apply L2, (c_param w q o _ _ G Hc); exact Rt).
    assert (Nf : fns <> nil) by (intros Z; rewrite Z in Lf; cbn [List.length] in Lf; lia).
    assert (Lr : bc_rank (map atleast_1d fv) = length (shp mu)).
    { rewrite Lmu. destruct L4 as [->|[_ (r' & k' & Hr' & Ek' & Fk)]].
      + apply bc_rank_flat; [|now apply Rr]. intros ->. inversion F2; congruence.
      + apply bc_rank_full; [exact Lm|now apply Rr|]. rewrite Hr in Hr'. injection Hr' as <-. rewrite Ek in Ek'. injection Ek' as <-. apply Rf; auto. lia. }
    pose proof (F2_length _ _ _ F2) as Lv. intros i.
    assert (Vals : map (fun x => bget x i) fv = map (evalX (dir_env first t0 tex p0 pex kw i)) fns).
    { clear -F2. induction F2 as [|e x fns fv E _ IH]; [reflexivity|]. cbn [map]. now rewrite E, IH. }
    unfold fint_at. rewrite <- Vals. destruct (Nat.eqb_spec n 1) as [E1|E1].
    - assert (Lfv : length fv = 2) by lia. clear En. subst n. destruct fv as [|x [|y [|]]]; try discriminate Lfv.
      destruct (k_Fint_el1 x y mux mu tau a i Kf Rx Ltau Lr) as [E _]. exact E.
    - apply (k_Fint_el _ _ _ _ _ _ i Kf Rx); [lia|assumption|assumption].
  Qed.
End Fint.
Lemma Fint_like w q o r w' q' o' r' kw kw' first a a' :
  good w q -> obj (w_heap w) o = Ok r -> Finv (w_heap w) -> r_fn_input r = None -> r_fnevals_input r = None -> flat w o ->
  good w' q' -> obj (w_heap w') o' = Ok r' -> Finv (w_heap w') -> r_fn_input r' = None -> r_fnevals_input r' = None -> flat w' o' ->
  but_backend (conf (w_heap w) r) (conf (w_heap w') r') kw kw' ->
  p_Fint (conf (w_heap w) r) (fnev_next (w_heap w) r) first = Ok a -> p_Fint (conf (w_heap w') r') (fnev_next (w_heap w') r') first = Ok a' ->
  forall i, bget a i = bget a' i.
Proof.
  intros G Hr FI N1 N2 FL G' Hr' FI' N1' N2' FL' B H H' i.
  destruct (Fint_form w q o r G Hr FI N1 N2 FL first a H) as (V & S & fns & n & t0 & p0 & tex & pex & d & mu & tau & EV & ES & Ef & En & R1 & R2 & R3 & R4 & Rk & Rm & Rt & E).
  destruct (Fint_form w' q' o' r' G' Hr' FI' N1' N2' FL' first a' H') as (V' & S' & fns' & n' & t0' & p0' & tex' & pex' & d' & mu' & tau' & EV' & ES' & Ef' & En' & R1' & R2' & R3' & R4' & Rk' & Rm' & Rt' & E').
  unfold p_nmax in En, En'. unfold p_mu0, p_muex in Rm, Rm'.
  rewrite (bb_V _ _ _ _ B) in EV', En'. rewrite (bb_SRF _ _ _ _ B) in ES', En'. rewrite !(bb_read _ _ _ _ B) in *.
  rewrite EV in EV'. rewrite ES in ES'. rewrite En in En'. rewrite R1 in R1'. rewrite R2 in R2'. rewrite R3 in R3'. rewrite R4 in R4'. rewrite Rm in Rm'.
  apply ok_eq in EV', ES', En', R1', R2', R3', R4', Rm'. subst V' S' n' t0' p0' tex' pex' mu'.
  pose proof (bb_geom _ _ _ _ B) as Eg. cbn [conf c_geom] in Eg. rewrite Eg, Ef in Ef'. apply ok_eq in Ef'. subst fns'.
  rewrite (bb_kw _ _ _ _ B) in Rk. rewrite (bb_kw' _ _ _ _ B) in Rk'. apply ok_eq in Rk, Rk'. subst d d'.
  rewrite E, E', (proj2 (p_val_like _ _ _ _ _ _ _ B Rt Rt') i). f_equal. apply map_ext. intros e. apply evalX_ext. intros s _.
  unfold dir_env. destruct first; unfold env_at; now rewrite (bb_get _ _ _ _ B).
Qed.
