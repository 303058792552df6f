(** The interaction contribution of an object in terms of what one reads from it. *)
From Coquelicot Require Import Coquelicot.
From Verif Require Import ExpInt AzInt LegFacts.
From Coq Require Import Lia List.
From Verif Require Import SpecExp SpecInt.
From Verif Require Export Interact Properties3.
Open Scope string_scope.
Open Scope nat_scope.
Open Scope list_scope.

(** the four names of the angles, exchanged *)
Definition swapped (f : string -> R) (s : string) : R :=
  if String.eqb s "theta_0" then f "theta_ex" else if String.eqb s "theta_ex" then f "theta_0"
  else if String.eqb s "phi_0" then f "phi_ex" else if String.eqb s "phi_ex" then f "phi_0" else f s.
Definition reserved : list string := "n" :: "theta_s" :: "phi_s" :: "theta_0" :: "theta_ex" :: "phi_0" :: "phi_ex" :: nil.
(** a scattering function whose parameters have ordinary names and whose expansion is defined *)
Definition usable (f : string -> R) (s : scat) : Prop :=
  (forall x, In x (scat_syms s) -> ~ In x reserved) /\ ok_exp f s /\ exists n, ncoefs s = Ok n /\ 0 < n.

Lemma usable_no_n f s : usable f s -> no_n s.
Proof. intros (H & _) X. apply (H _ X). simpl. auto. Qed.
Lemma usable_free f s : usable f s -> free_scat s.
Proof. intros (H & _) x Hx _. split; intros ->; apply (H _ Hx); simpl; auto. Qed.
Lemma usable_swap f s x : usable f s -> In x (scat_syms s) -> f x = swapped f x.
Proof.
  intros (H & _) Hx. specialize (H _ Hx). unfold swapped. simpl in H.
  destruct (String.eqb_spec x "theta_0") as [->|]; [tauto|]. destruct (String.eqb_spec x "theta_ex") as [->|]; [tauto|].
  destruct (String.eqb_spec x "phi_0") as [->|]; [tauto|]. destruct (String.eqb_spec x "phi_ex") as [->|]; [tauto|]. reflexivity.
Qed.
Lemma ok_a_ext f g a : (forall x, In x (syms (a0 a) ++ syms (a1 a) ++ syms (a2 a)) -> f x = g x) -> ok_a f a -> ok_a g a.
Proof.
  intros H. assert (H0 : forall x, In x (syms (a0 a)) -> f x = g x) by (intros; apply H; apply in_or_app; auto).
  assert (H1 : forall x, In x (syms (a1 a)) -> f x = g x) by (intros; apply H; apply in_or_app; right; apply in_or_app; auto).
  assert (H2 : forall x, In x (syms (a2 a)) -> f x = g x) by (intros; apply H; apply in_or_app; right; apply in_or_app; auto).
  unfold ok_a, wd_a. rewrite (Elem.evalR_ext _ f g H0), (Elem.evalR_ext _ f g H1), (Elem.evalR_ext _ f g H2).
  intros ((A & B & C) & D). split; [|exact D]. split; [|split]; eapply wd_ext; eauto.
Qed.
Lemma ok_member_ext f g m : is_basic m -> (forall x, In x (scat_syms m) -> f x = g x) ->
  ok_coef f m /\ wd_a f (scat_a m) -> ok_coef g m /\ wd_a g (scat_a m).
Proof.
  intros B H [O W].
  assert (Ha : forall x, In x (a_syms (scat_a m)) -> f x = g x) by (intros x Hx; apply H; now apply (scat_a_syms _ B)).
  assert (H0 : forall x, In x (syms (a0 (scat_a m))) -> f x = g x) by (intros; apply Ha; apply in_or_app; auto).
  assert (H1 : forall x, In x (syms (a1 (scat_a m))) -> f x = g x) by (intros; apply Ha; apply in_or_app; right; apply in_or_app; auto).
  assert (H2 : forall x, In x (syms (a2 (scat_a m))) -> f x = g x) by (intros; apply Ha; apply in_or_app; right; apply in_or_app; auto).
  split.
  - destruct m; cbn [ok_coef scat_syms scat_a] in *; auto;
      try (eapply wd_ext; [|exact O]; intros x Hx; apply H; apply in_or_app; auto).
    assert (Ht : forall x, In x (syms t) -> f x = g x) by (intros x Hx; apply H; apply in_or_app; auto).
    destruct O as ((O1 & O2) & O3 & O4 & O5). unfold ok_t. rewrite <- (Elem.evalR_ext _ f g Ht), <- (Elem.evalR_ext _ f g H0).
    repeat split; auto; try (eapply wd_ext; [exact Ht|assumption]); try (eapply ok_a_ext; [|exact O3]; exact Ha).
  - destruct W as (A & B' & C). repeat split; eapply wd_ext; eauto.
Qed.
Lemma ok_exp_ext f g s : Forall is_basic (members s) -> (forall x, In x (scat_syms s) -> f x = g x) -> ok_exp f s -> ok_exp g s.
Proof.
  intros B H [O W]. rewrite Forall_forall in B, O, W. split; apply Forall_forall.
  - intros m Hm. apply (ok_member_ext f g m (B m Hm)); [|now apply O]. intros x Hx. apply H.
    destruct s; cbn [members] in Hm; try (destruct Hm as [<-|[]]; exact Hx). apply in_map_iff in Hm. destruct Hm as (c & <- & Hc).
    cbn [scat_syms]. apply in_flat_map. exists c. split; [assumption|apply in_or_app; auto].
  - intros x Hx. eapply wd_ext; [|apply W, Hx]. intros y Hy. apply H. destruct s; cbn [weights] in Hx; try destruct Hx.
    apply in_map_iff in Hx. destruct Hx as (c & <- & Hc). cbn [scat_syms]. apply in_flat_map. exists c. split; [assumption|apply in_or_app; auto].
Qed.
Lemma exp_ext_swap f s t0 tex p0 pex : usable f s -> Forall is_basic (members s) ->
  expansion_value (swapped f) s t0 tex p0 pex = expansion_value f s t0 tex p0 pex.
Proof. intros U B. symmetry. apply expansion_value_ext; [assumption|]. intros x Hx. now apply (usable_swap f s). Qed.
Lemma calc_fn_basic V SRF g fns : calc_fn V SRF g = Ok fns -> Forall is_basic (members V) /\ Forall is_basic (members SRF).
Proof.
  intros E. destruct (fn_parts V SRF g fns E) as (be & ve & nV & nS & EB & EV & _). split; eapply lexp_basic_members; eassumption.
Qed.

(** ** values of the geometry slots *)
Definition ang_name (a : angle) : string := match a with T0 => "theta_0" | TEx => "theta_ex" | P0 => "phi_0" | PEx => "phi_ex" end.
Definition is_fixed (r : rt1) (a : angle) : Prop := existsb (angle_eqb a) (r_fixed r) = true.
Lemma slot_val h r a e x i f : slot r a e -> p_stored (conf h r) a = Ok x -> bget x i = Fin (f (ang_name a)) ->
  evalR f e = f (ang_name a) /\
  (evalR (swapped f) e = swapped f (ang_name a) /\ ~ is_fixed r a \/ evalR (swapped f) e = f (ang_name a) /\ is_fixed r a).
Proof.
  intros [[-> Nf]|(q & -> & H & Fx)] E B.
  - split; [destruct a; reflexivity|left]. split; [destruct a; reflexivity|]. unfold is_fixed. now rewrite Nf.
  - unfold p_stored in E. cbn [conf c_ang] in E. rewrite H in E. cbn [option_map] in E. unfold val1 in E. cbn [deref rbind] in E.
    apply ok_eq in E. subst x. unfold atleast_1d, num, scalar in B. cbn [shp get] in B. unfold bget in B. cbn [get] in B.
    assert (Q : Q2R q = f (ang_name a)) by (inversion B; reflexivity). cbn [evalR]. rewrite Q. auto.
Qed.
Lemma slot_free r a e : slot r a e -> free e.
Proof. intros [[-> _]|(q & -> & _)]; [|split; intros []]. destruct a; split; cbn; intros [X|[]]; discriminate X. Qed.
Lemma slot_wd f r a e : slot r a e -> wd f e.
Proof. intros [[-> _]|(q & -> & _)]; exact I. Qed.
Lemma geom_free r : geom_ok r -> free_angs (r_geom r).
Proof.
  unfold geom_ok, free_angs. destruct (r_mono r).
  - intros (e & -> & S). cbn [g_t0 g_tex g_p0 g_pex]. pose proof (slot_free _ _ _ S). assert (free (ang_sym T0)) by (split; cbn; intros [X|[]]; discriminate X). split; [|split; [|split]]; assumption.
  - intros (A & B & C & D). split; [|split; [|split]]; eapply slot_free; eassumption.
Qed.
Lemma geom_wd f r : geom_ok r -> wd f (g_t0 (r_geom r)) /\ wd f (g_tex (r_geom r)) /\ wd f (g_p0 (r_geom r)) /\ wd f (g_pex (r_geom r)).
Proof.
  unfold geom_ok. destruct (r_mono r).
  - intros (e & -> & S). cbn. pose proof (slot_wd f _ _ _ S). auto.
  - intros (A & B & C & D). split; [|split; [|split]]; eapply slot_wd; eassumption.
Qed.

(** No argument of the evaluation has more than one dimension, or: t_0 and t_ex have the maximal number
    of dimensions and the functions evaluated for the fn-coefficients are either compiled by symengine
    or not all constant (constants are not broadcast by functions compiled by sympy, see C21). *)
Definition fn_fills (w : world) (o : nat) : Prop :=
  exists r k, obj (w_heap w) o = Ok r /\ fnev_next (w_heap w) r = Ok (Some k) /\ fills k.
Definition flat (w : world) (o : nat) : Prop := exists R,
  (forall b a, obs_angle w o b a -> length (shp a) <= R) /\
  (forall a, obs_param w o Tau a -> length (shp a) <= R) /\
  (forall d k a, snd (step w (OParamDict o)) = RetDict d -> In (k, a) d -> length (shp a) <= R) /\
  (R = 1 \/ (forall a, obs_angle w o T0 a \/ obs_angle w o TEx a -> length (shp a) = R) /\ fn_fills w o).

Lemma xmul_NaN_r a : xmul a NaN = NaN. Proof. destruct a; reflexivity. Qed.
Lemma xadd_NaN_r a : xadd a NaN = NaN. Proof. destruct a; reflexivity. Qed.
Lemma rsign_pos y : (0 < y)%R -> rsign y = 1%Z. Proof. intros H. unfold rsign. destruct (Rlt_dec 0 y); [reflexivity|contradiction]. Qed.
Lemma x_S2_nan mu tau n : (0 < mu <= 1)%R -> (tau = 0 \/ mu = 1)%R -> x_S2 (Fin mu) (Fin tau) n = NaN.
Proof.
  intros Hm H. unfold x_S2. replace (x_hlp1 (Fin mu) (Fin tau)) with NaN; [apply xadd_NaN_r|].
  unfold x_hlp1. cbn [xopp]. rewrite !xdiv_Fin by lra. cbn [xexp xsub xadd xopp].
  replace (1 + - mu)%R with (1 - mu)%R by ring.
  assert (E1 : xexpi (Fin (tau / mu + - tau)) = NInf).
  { unfold xexpi. destruct (Req_EM_T _ 0) as [_|X]; [reflexivity|]. exfalso. apply X. destruct H as [->| ->]; field; lra. }
  rewrite E1. assert (Q : xmul (Fin (exp (- tau / mu))) NInf = NInf).
  { cbn [xmul]. now rewrite (rsign_pos _ (exp_pos _)). }
  rewrite Q. clear Q E1. destruct (Req_EM_T mu 1) as [M|M].
  - replace (1 - mu)%R with 0%R by lra.
    assert (P : xmul (Fin (exp (- tau / mu))) (xlog (xdiv (Fin mu) (Fin 0))) = PInf).
    { unfold xdiv. destruct (Req_EM_T 0 0) as [_|X]; [|congruence]. rewrite (rsign_pos mu) by lra. cbn [inf_of_sign xlog xmul]. now rewrite (rsign_pos _ (exp_pos _)). }
    rewrite P. unfold xexpi. destruct (Req_EM_T (- tau) 0); reflexivity.
  - rewrite xdiv_Fin by lra. assert (T : tau = 0%R) by tauto. subst tau.
    assert (E2 : xexpi (Fin (- 0)) = NInf) by (unfold xexpi; destruct (Req_EM_T _ 0) as [_|X]; [reflexivity|exfalso; apply X; ring]).
    rewrite E2. assert (Lp : (0 < mu / (1 - mu))%R) by (apply Rdiv_lt_0_compat; lra). unfold xlog. destruct (Rlt_dec 0 (mu / (1 - mu))); [|contradiction]. reflexivity.
Qed.
Lemma x_Fint_nan fs mu tau : (0 < mu <= 1)%R -> (tau = 0 \/ mu = 1)%R -> 0 < length fs -> x_Fint fs (Fin mu) (Fin tau) = NaN.
Proof.
  intros Hm H L. unfold x_Fint. destruct fs as [|a fs]; [simpl in L; lia|]. cbn [List.length seq fold_right].
  rewrite (x_S2_nan mu tau 0 Hm H), !xmul_NaN_r. reflexivity.
Qed.

Section Inter.
  Context (w : world) (q : op) (o : nat) (r : rt1) (i : list nat) (x : point) (f : string -> R) (V SRF : scat).
  Hypothesis (G : good w q) (Hr : obj (w_heap w) o = Ok r) (FI : Finv (w_heap w)) (GI : geom_ok r).
  Hypothesis (N1 : r_fn_input r = None) (N2 : r_fnevals_input r = None).
  Hypothesis (EV : scat_at (w_heap w) (r_V r) = Ok V) (ES : scat_at (w_heap w) (r_SRF r) = Ok SRF).
  Hypothesis (UV : usable f V) (US : usable f SRF) (NM : named w o i f) (FL : flat w o).
  Notation C := (conf (w_heap w) r).
  Notation fe := (fnev_next (w_heap w) r).
  Notation g := (r_geom r).
  Lemma hc : at_conf w o C fe. Proof. exists r. auto. Qed.
  Definition look (first : bool) : string -> R := if first then f else swapped f.
  Lemma look_V first : Forall is_basic (members V) -> ok_exp (look first) V.
  Proof. intros B. destruct first; [apply UV|]. apply (ok_exp_ext f); [assumption| |apply UV]. intros y Hy. now apply (usable_swap f V). Qed.
  Lemma look_S first : Forall is_basic (members SRF) -> ok_exp (look first) SRF.
  Proof. intros B. destruct first; [apply US|]. apply (ok_exp_ext f); [assumption| |apply US]. intros y Hy. now apply (usable_swap f SRF). Qed.
  Lemma Fint_data first a : p_Fint C fe first = Ok a ->
    exists fns nV nS mua taua mux fv, calc_fn V SRF g = Ok fns /\ ncoefs V = Ok nV /\ ncoefs SRF = Ok nS /\ 0 < nV /\ 0 < nS /\
      k_Fint (nV + nS - 1) fv mux mua taua = Ok a /\ k_mux (nV + nS - 1) mua = Ok mux /\
      (exists env, Forall2 (fun e x => forall i, bget x i = evalX (env i) e) fns fv /\
         (forall s, In s (all_syms fns) -> env i s = Fin (look first s))) /\ Forall (wd (look first)) fns /\
      bget mua i = Fin (cos (look first "theta_0")) /\ p_val C Tau = Ok taua /\
      length (shp taua) <= length (shp mua) /\ bc_rank (map atleast_1d fv) = length (shp mua).
  Proof.
    intros H.
    assert (K : exists k, fe = Ok (Some k)).
    { unfold p_Fint in H. repeat match type of H with rbind ?z _ = _ => destruct z eqn:?; [cbn [rbind] in H|discriminate H] end.
      match type of H with match ?z with _ => _ end = _ => destruct z; [eauto|discriminate H] end. }
    destruct K as [k Ek]. rewrite Ek in H.
    destruct (fnev_next_src _ _ _ FI (ex_intro _ o Hr) N2 Ek) as (seng & ks & ex & fns & L & Kp & Src).
    unfold fn_src in Src. rewrite N1 in Src. destruct Src as (v & s & Ev & Es & Ef). rewrite EV in Ev. rewrite ES in Es. inversion Ev; inversion Es; subst v s.
    assert (Kp' : dkeys (c_params C) = ks ++ ex) by (rewrite <- Kp; apply dkeys_map).
    destruct (Fint_inv _ _ _ _ _ _ _ _ H L Kp') as (t0 & p0 & tex & pex & kw & n & mu & mux & tau' & fv & R1 & R2 & R3 & R4 & Rk & Rn & Rm & Rx & Rt & K & _ & Inc & Rr & Rf & F2).
    destruct (calc_fn_basic _ _ _ _ Ef) as [BV BS].
    pose proof UV as (_ & _ & nV & HnV & PV). pose proof US as (_ & _ & nS & HnS & PS).
    assert (En : n = nV + nS - 1). { unfold p_nmax in Rn. cbn [conf c_V c_SRF] in Rn. rewrite EV, ES in Rn. cbn [rbind] in Rn. rewrite HnV, HnS in Rn. cbn [rbind] in Rn. now inversion Rn. }
    subst n.
    pose proof hc as Hc.
    assert (Nf : fns <> nil).
    { intros ->. pose proof (fn_length V SRF g nil Ef nV nS HnV HnS) as Lf. cbn [List.length] in Lf. lia. }
    destruct FL as (m & L1 & L2 & L3 & L4).
    assert (A1 : ranks m (t0 :: p0 :: tex :: pex :: dvals kw)).
    { intros z [<-|[<-|[<-|[<-|Hz]]]]; try (eapply L1, (c_angle w q o _ _ G Hc); eassumption).
      unfold dvals in Hz. apply in_map_iff in Hz. destruct Hz as ((k0 & a0) & <- & Hz). eapply L3; [apply (c_dict w q o _ _ G Hc); exact Rk|exact Hz]. }
    assert (Lt : length (shp t0) = m /\ length (shp tex) = m).
    { destruct L4 as [->|[L4 _]].
      - pose proof (read_rank _ _ _ _ R1). pose proof (read_rank _ _ _ _ R3). pose proof (A1 t0) as X. pose proof (A1 tex) as Y. simpl in X, Y. intuition lia.
      - split; apply L4; [left|right]; now apply (c_angle w q o _ _ G Hc). }
    destruct Lt as [Lt0 Ltex]. assert (Lm : 1 <= m) by (pose proof (read_rank _ _ _ _ R1); lia).
    assert (Lmu : length (shp mu) = m /\ bget mu i = Fin (cos (look first "theta_0"))).
    { destruct first.
      - unfold p_mu0 in Rm. rewrite R1 in Rm. cbn [rbind] in Rm. apply ok_eq in Rm. subst mu. unfold ncos. split.
        + exact Lt0.
        + rewrite bget_map1. destruct NM as (M & _). rewrite (M t0); [reflexivity|]. now apply (c_angle w q o _ _ G Hc).
      - unfold p_muex in Rm. rewrite R3 in Rm. cbn [rbind] in Rm. apply ok_eq in Rm. subst mu. unfold ncos. split.
        + exact Ltex.
        + rewrite bget_map1. destruct NM as (_ & M & _). rewrite (M tex); [reflexivity|]. now apply (c_angle w q o _ _ G Hc). }
    destruct Lmu as [Lmu Vmu].
    assert (Ltau : length (shp tau') <= m) by (apply L2, (c_param w q o _ _ G Hc); exact Rt).
    destruct (geom_wd (look first) r GI) as (W1 & W2 & W3 & W4).
    pose proof (geom_free r GI) as Fg.
    pose proof (fn_wd V SRF g fns Ef nV nS HnV HnS PV PS Fg (usable_free _ _ UV) (usable_free _ _ US) (look first) (usable_no_n _ _ UV) (usable_no_n _ _ US)
      (look_V first BV) (look_S first BS) W1 W2 W3 W4) as Wd.
    exists fns, nV, nS, mu, tau', mux, fv. split; [exact Ef|]. split; [exact HnV|]. split; [exact HnS|]. split; [exact PV|]. split; [exact PS|].
    split; [exact K|]. split; [exact Rx|]. split; [exists (dir_env first t0 tex p0 pex kw); split; [exact F2|]|].
    - intros s Hs. apply Inc in Hs. assert (Hs' : In s (angle_names ++ dkeys kw)) by (apply in_app_or in Hs; apply in_or_app; simpl in *; tauto).
      pose proof (env_at_fin w q o C fe i f t0 tex p0 pex kw s G Hc NM R1 R3 R2 R4 Rk Hs') as E1.
      destruct first; [exact E1|]. cbn [look dir_env]. destruct NM as (M1 & M2 & M3 & M4 & M5).
      apply (c_angle w q o _ _ G Hc) in R1, R2, R3, R4. unfold swapped. unfold env_at in E1 |- *.
      destruct (String.eqb_spec s "theta_0") as [->|]; [now apply M2|].
      destruct (String.eqb_spec s "theta_ex") as [->|]; [now apply M1|].
      destruct (String.eqb_spec s "phi_0") as [->|]; [now apply M4|].
      destruct (String.eqb_spec s "phi_ex") as [->|]; [now apply M3|]. exact E1.
    - split; [exact Wd|]. split; [exact Vmu|]. split; [exact Rt|]. split; [lia|]. rewrite Lmu.
      destruct L4 as [->|[_ (r' & k' & Hr' & Ek' & Fk)]].
      + apply bc_rank_flat; [|now apply Rr]. intros ->. inversion F2; congruence.
      + apply bc_rank_full; [exact Lm|now apply Rr|]. rewrite Hr in Hr'. injection Hr' as <-. rewrite Ek in Ek'. injection Ek' as <-.
        apply Rf; auto. lia.
  Qed.
  Lemma Fint_el first a tau : p_Fint C fe first = Ok a ->
    (0 < cos (look first "theta_0") < 1)%R -> (0 < tau)%R -> (forall t, p_val C Tau = Ok t -> bget t i = Fin tau) ->
    exists F, bget a i = Fin F /\ Forall is_basic (members V) /\ Forall is_basic (members SRF) /\
      is_F (cos (look first "theta_0")) tau (vol_exp V g (look first)) (brdf_exp SRF g (look first)) F.
  Proof.
    intros H Hm Ht Et. destruct (Fint_data first a H) as (fns & nV & nS & mu & tau' & mux & fv & Ef & HnV & HnS & PV & PS & K & Rx & (env & F2 & En) & Wd & Vmu & Rt & Lt & Lf).
    destruct (calc_fn_basic _ _ _ _ Ef) as [BV BS]. pose proof (geom_free r GI) as Fg.
    destruct (k_Fint_value V SRF g fns nV nS Ef HnV HnS PV PS Fg (usable_free _ _ UV) (usable_free _ _ US) (usable_no_n _ _ UV) (usable_no_n _ _ US)
       (look first) _ tau Hm Ht env mu tau' mux fv a i K Rx F2) as (F & EF & IF); try assumption.
    - now apply Et.
    - exists F. split; [exact EF|]. split; [exact BV|]. split; [exact BS|]. split.
      + intros th. eapply (az_exists V SRF g fns nV nS); eauto using usable_free, usable_no_n.
      + eapply (hemisphere V SRF g fns nV nS); eauto using usable_free, usable_no_n.
  Qed.

  (** the closed form is not a number at tau = 0 and at normal incidence or exit *)
  Lemma Fint_nan first a tau : p_Fint C fe first = Ok a ->
    (0 < cos (look first "theta_0") <= 1)%R -> (tau = 0 \/ cos (look first "theta_0") = 1)%R -> (forall t, p_val C Tau = Ok t -> bget t i = Fin tau) ->
    bget a i = NaN.
  Proof.
    intros H Hm Ht Et. destruct (Fint_data first a H) as (fns & nV & nS & mu & tau' & mux & fv & Ef & HnV & HnS & PV & PS & K & Rx & (env & F2 & En) & Wd & Vmu & Rt & Lt & Lf).
    pose proof (fn_length V SRF g fns Ef nV nS HnV HnS) as L. pose proof (F2_length _ _ _ F2) as Lv.
    destruct (Nat.eq_dec (nV + nS - 1) 1) as [N|N].
    - assert (nV = 1 /\ nS = 1) as [-> ->] by lia. destruct fns as [|y1 [|y2 [|]]]; try (cbn [List.length Nat.max Nat.add Nat.sub] in L; lia).
      destruct fv as [|z1 [|z2 [|]]]; try (cbn [List.length] in Lv; lia).
      pose proof (k_Fint_el1 z1 z2 mux mu tau' a i K Rx Lt Lf) as Ea. cbv zeta in Ea. apply proj1 in Ea. rewrite Ea, Vmu, (Et _ Rt), (x_S2_nan _ tau 0 Hm Ht), !xmul_NaN_r. reflexivity.
    - destruct (k_Fint_el _ _ _ _ _ _ i K Rx) as [Eb _]; [lia|assumption|assumption|]. rewrite Eb, Vmu, (Et _ Rt).
      apply x_Fint_nan; try assumption. rewrite map_length. lia.
  Qed.
End Inter.
