(** What hemreflect computes, element by element. *)
From Coquelicot Require Import Coquelicot.
From Coq Require Import Reals Lia Lra List.
From Verif Require Import ExpInt AzInt LegFacts LegSeries LegSeries2 Trunc.
From Verif Require Import SpecScat SpecExp SpecInt SpecFig Quad Quad2.
From Verif Require Import Progress CallEq Memo Interact2 Hem.
From Verif Require Export Properties24.
Open Scope string_scope.
Open Scope list_scope.
Open Scope R_scope.

(** ** np.arange *)
Lemma ceil_spec x k : (k < ceil_nat x)%nat <-> INR k < x.
Proof.
  unfold ceil_nat. destruct (archimed (- x)) as [A B]. rewrite INR_IZR_INZ. split.
  - intros H. assert (Z.of_nat k <= - up (- x))%Z as L by lia. apply IZR_le in L. rewrite opp_IZR in L. lra.
  - intros H. assert (L : IZR (up (- x)) < IZR (1 - Z.of_nat k)) by (rewrite minus_IZR; lra). apply lt_IZR in L. lia.
Qed.
Lemma arange_spec a b s : 0 < s -> exists l, arange a b s = Ok l /\ (forall k, (k < length l)%nat <-> a + INR k * s < b) /\
  forall k, (k < length l)%nat -> nth_error l k = Some (a + INR k * s).
Proof.
  intros H. unfold arange. destruct (Req_EM_T s 0); [lra|]. eexists. split; [reflexivity|]. rewrite map_length, seq_length. split.
  - intros k. rewrite ceil_spec. split; intros X.
    + assert (INR k * s < (b - a) / s * s) by (now apply Rmult_lt_compat_r). unfold Rdiv in *. rewrite Rmult_assoc, Rinv_l in *; lra.
    + apply Rmult_lt_reg_r with s; [assumption|]. unfold Rdiv. rewrite Rmult_assoc, Rinv_l; lra.
  - intros k Hk. rewrite nth_error_map, (nth_error_nth' _ 0%nat) by now rewrite seq_length. rewrite seq_nth by assumption. reflexivity.
Qed.

(** ** simps *)
Lemma basicX_Fin h g r start n N : (start + 2 * n < N)%nat -> (forall k, (k < N)%nat -> g k = Fin (r k)) -> basicX h g start n = Fin (basicR h r start n).
Proof.
  intros H E. induction n as [|n IH]; [reflexivity|]. cbn [basicX basicR]. rewrite IH, !E by lia. reflexivity.
Qed.
Lemma simpsX_Fin old N h g r : (2 <= N)%nat -> (forall k, (k < N)%nat -> g k = Fin (r k)) -> simpsX old N h g = Fin (simpsR old N h r).
Proof.
  intros HN E. unfold simpsX, simpsR, trapX, trapR. set (m := Nat.div2 (N - 1)). destruct (Nat.odd N) eqn:Eo.
  - pose proof (odd_div2 N Eo). apply (basicX_Fin h g r 0 m N); [lia|assumption].
  - pose proof (even_div2 N Eo HN) as F. fold m in F. rewrite (basicX_Fin h g r 0 m N) by (try lia; assumption).
    destruct (orb old (N =? 2)%nat) eqn:Ea.
    + rewrite (basicX_Fin h g r 1 m N) by (try lia; assumption). rewrite !E by lia. cbn [xadd xmul]. f_equal. field.
    + assert (3 < N)%nat by (destruct old; [discriminate|]; apply Nat.eqb_neq in Ea; lia). rewrite !E by lia. reflexivity.
Qed.

(** ** The values handed to the distribution function *)
(** [kw] gives numbers for names other than the angles, among them every parameter of [s]; [f] are their values *)
Definition numbers_for (kw : dict (nd xr)) (f : string -> R) (s : scat) : Prop :=
  NoDup (angle_names ++ dkeys kw) /\ incl (scat_syms s) (dkeys kw) /\
  forall k a, In (k, a) kw -> shp a = nil /\ get a nil = Fin (f k).
Lemma ok_scat_ext f g s : (forall x, In x (scat_syms s) -> f x = g x) -> ok_scat f s -> ok_scat g s.
Proof.
  assert (W : forall a, (forall x, In x (a_syms a) -> f x = g x) -> wd_a f a -> wd_a g a).
  { intros a H (A & B & C). unfold a_syms in H. repeat split; (eapply Elem.wd_ext; [|eassumption]); intros x Hx; apply H; rewrite !in_app_iff; auto. }
  assert (T : forall t, (forall x, In x (syms t) -> f x = g x) -> ok_t f t -> ok_t g t).
  { intros t H [A B]. unfold ok_t. rewrite <- (Elem.evalR_ext _ f g H). split; [|exact B]. eapply Elem.wd_ext; eassumption. }
  induction s as [a|a|t nc a|t nc a|a|i nc a|t nc a|t nc a|cs a IH] using scat_ind'; cbn [ok_scat scat_syms]; intros H O; try exact I;
    try (now apply (W a)); try (destruct O as [O1 O2]; split; [apply (T t); [|exact O1]; intros; apply H, in_or_app; auto|]);
    try (apply (ok_a_ext f g a); [|exact O2]; intros; apply H, in_or_app; auto).
  - destruct O2 as (O2 & O3 & O4).
    assert (Ht : forall x, In x (syms t) -> f x = g x) by (intros; apply H, in_or_app; auto).
    assert (H0 : forall x, In x (syms (a0 a)) -> f x = g x) by (intros; apply H, in_or_app; right; unfold a_syms; apply in_or_app; auto).
    rewrite <- (Elem.evalR_ext _ f g Ht), <- (Elem.evalR_ext _ f g H0). split; [|auto].
    apply (ok_a_ext f g a); [|exact O2]. intros; apply H, in_or_app; auto.
  - induction cs as [|c cs IHc]; [exact I|]. cbn [fold_right flat_map] in *. inversion IH; subst. destruct O as (O1 & O2 & O3).
    split; [|split].
    + eapply Elem.wd_ext; [|exact O1]. intros; apply H, in_or_app; left; apply in_or_app; auto.
    + apply H2; [|exact O2]. intros; apply H, in_or_app; left; apply in_or_app; auto.
    + apply IHc; [assumption| |exact O3]. intros; apply H, in_or_app; auto.
Qed.
Lemma nd_right {A} (l l' : list A) : NoDup (l ++ l') -> NoDup l'.
Proof. induction l as [|x l IH]; intros H; [exact H|]. cbn [app] in H. inversion H. auto. Qed.
Lemma kw_ble (kw : dict (nd xr)) f s u : numbers_for kw f s -> Forall (fun a => ble (shp a) u) (dvals kw).
Proof.
  intros (_ & _ & K). apply Forall_forall. intros a Ha. unfold dvals in Ha. apply in_map_iff in Ha. destruct Ha as ([k b] & <- & Hb).
  destruct (K k b Hb) as [E _]. cbn [snd]. rewrite E. apply ble_nil.
Qed.
Lemma row_at n l b : bget (row_linspace n 0 b) (l :: nil) = Fin (if (n =? 1)%nat then 0 else gridpt b n l).
Proof.
  unfold bget, row_linspace, gridpt. cbn [shp get proj hd]. destruct (n =? 1)%nat eqn:E; f_equal; [apply Nat.eqb_eq in E; subst; simpl INR; ring|].
  rewrite Rminus_0_r. ring.
Qed.
Section Brdf.
  Context (w : world) (q : op) (sid n : nat) (s : scat) (f : string -> R) (kw : dict (nd xr)) (p0 : R).
  Hypothesis (G : good w q) (Hs : scat_at (w_heap w) sid = Ok s) (K : numbers_for kw f s) (NA : no_angles s) (O : ok_scat f s) (Hn : (2 <= n)%nat).
  Let x := col_linspace n 0 (PI / 2).
  Let y := row_linspace n 0 (2 * PI).
  Definition brdf_op (th : R) : op := OScatCalc sid (num th) x (num p0) y kw.
  Definition brdf (th : R) (l k : nat) : R := distribution f s th (gridpt (PI / 2) n k) p0 (gridpt (2 * PI) n l).
  Lemma x_at l k : (k < n)%nat -> bget x (l :: k :: nil) = Fin (gridpt (PI / 2) n k).
  Proof.
    intros Hk. unfold x, bget, col_linspace, gridpt. cbn [shp get proj hd tl nth Nat.eqb].
    destruct (n =? 1)%nat eqn:E; [apply Nat.eqb_eq in E; lia|]. f_equal. rewrite Rminus_0_r. ring.
  Qed.
  Lemma y_at l k : bget y (l :: k :: nil) = Fin (gridpt (2 * PI) n l).
  Proof.
    unfold y, bget, row_linspace, gridpt. cbn [shp get proj hd tl].
    destruct (n =? 1)%nat eqn:E; [apply Nat.eqb_eq in E; lia|]. f_equal. rewrite Rminus_0_r. ring.
  Qed.
  Lemma brdf_incl : incl (syms (phase_function s)) (angle_names ++ dkeys kw).
  Proof.
    destruct K as (_ & I & _). intros z Hz. apply (phase_over (fun v => In v (angle_names ++ dkeys kw))) with (s := s); [| |exact Hz].
    - intros v Hv. apply in_or_app. auto.
    - intros v Hv. apply in_or_app. right. now apply I.
  Qed.
  Lemma brdf_env th l k v : (k < n)%nat -> In v (angle_names ++ dkeys kw) ->
    env_at (num th) x (num p0) y kw (l :: k :: nil) v = Fin (dirs f th (gridpt (PI / 2) n k) p0 (gridpt (2 * PI) n l) v).
  Proof.
    intros Hk Hv. unfold env_at, dirs. destruct (String.eqb v "theta_0") eqn:E1; [reflexivity|]. destruct (String.eqb v "theta_ex") eqn:E2; [now apply x_at|].
    destruct (String.eqb v "phi_0") eqn:E3; [reflexivity|]. destruct (String.eqb v "phi_ex") eqn:E4; [apply y_at|].
    apply in_app_or in Hv. destruct Hv as [Hv|Hv].
    { apply String.eqb_neq in E1, E2, E3, E4. unfold angle_names in Hv. simpl in Hv. destruct Hv as [<-|[<-|[<-|[<-|[]]]]]; congruence. }
    destruct K as (N & _ & KV). unfold dkeys in Hv. apply in_map_iff in Hv. destruct Hv as ([k' a] & Ek & Ha). simpl in Ek. subst k'.
    apply nd_right in N. rewrite (dget_own kw N v a Ha). destruct (KV v a Ha) as [Sa Ga]. unfold bget. rewrite Sa. exact Ga.
  Qed.
  Definition comp_of : compiled := mk_comp (h_be (w_heap w)) (angle_names ++ dkeys kw) (phase_function s :: nil).
  Lemma brdf_eval th : snd (step w (brdf_op th)) = outA (call1 comp_of (num th :: x :: num p0 :: y :: nil) kw).
  Proof.
    assert (G' : good w (brdf_op th)) by (apply (good_other w q); [exact G|intros J; exact I]).
    destruct (good_eval _ _ G') as (_ & -> & _). unfold brdf_op. rewrite eval_scat, Hs. cbn [rbind].
    rewrite lambdify_total; [reflexivity| | |].
    - exact (proj2 (good_keys w q G)).
    - apply K.
    - unfold all_syms. cbn [flat_map]. rewrite app_nil_r. exact brdf_incl.
  Qed.
  Lemma args_ble th : Forall (fun a => ble (shp a) (n :: n :: nil)) ((num th :: x :: num p0 :: y :: nil) ++ dvals kw).
  Proof.
    cbn [app]. constructor; [apply ble_nil|]. constructor; [apply ble_cons; split; [auto|apply ble_cons; split; [auto|apply ble_nil]]|].
    constructor; [apply ble_nil|]. constructor; [apply ble_cons; split; [auto|apply ble_nil]|]. exact (kw_ble kw f s _ K).
  Qed.
  Lemma brdf_call th : exists b, call1 comp_of (num th :: x :: num p0 :: y :: nil) kw = Ok b /\ ble (shp b) (n :: n :: nil) /\
    forall l k, (k < n)%nat -> bget b (l :: k :: nil) = Fin (brdf th l k).
  Proof.
    destruct (call_total (n :: n :: nil) comp_of angle_names (num th :: x :: num p0 :: y :: nil) kw eq_refl eq_refl) as (bs & E & L & F).
    - destruct K as (N & _). now apply nd_right in N.
    - discriminate.
    - unfold comp_of, all_syms. cbn [c_exprs c_vars flat_map]. rewrite app_nil_r. exact brdf_incl.
    - apply args_ble.
    - destruct bs as [|b [|]]; try discriminate L. exists b.
      assert (C1 : call1 comp_of (num th :: x :: num p0 :: y :: nil) kw = Ok b) by (unfold call1; rewrite E; reflexivity).
      split; [exact C1|]. split; [now inversion F|]. intros l k Hk.
      destruct (call1_spec comp_of _ _ (phase_function s) _ eq_refl C1) as (vals & B & _ & V). rewrite V. unfold brdf, distribution.
      apply evalX_Fin.
      + intros v Hv. apply brdf_incl in Hv. cbn [c_vars comp_of]. rewrite (env_of_angles _ _ _ _ _ _ _ _ B Hv). now apply brdf_env.
      + apply wd_phase. apply (ok_scat_ext f); [|exact O]. intros z Hz. symmetry. now apply dirs_other, NA.
  Qed.
  (** the azimuth axis is there if the backend is symengine or the function depends on the exit azimuth *)
  Definition azimuth_axis : Prop := h_be (w_heap w) = Symengine \/ In "phi_ex" (syms (phase_function s)).
  Lemma brdf_axis th b : azimuth_axis -> call1 comp_of (num th :: x :: num p0 :: y :: nil) kw = Ok b -> ble (n :: nil) (shp b).
  Proof.
    intros A H. unfold azimuth_axis in A. unfold call1, call, comp_of in H. cbn [c_be c_vars c_exprs] in H.
    assert (N : NoDup (dkeys kw)) by (destruct K as (N & _); now apply nd_right in N).
    destruct (h_be (w_heap w)) eqn:Eb.
    - destruct A as [A|A]; [discriminate A|]. rewrite (bind_sympy_full angle_names) in H by (try reflexivity; exact N). cbn [rbind] in H.
      destruct (subset_b _ _); [|discriminate]. cbn [rmap] in H. unfold eval_sympy in H at 1.
      destruct (bc_shapes _) as [r|] eqn:Er; [|discriminate]. cbn [rbind] in H. injection H as <-. cbn [shp].
      apply bc_shapes_in in Er. rewrite Forall_forall in Er. apply (Er (n :: nil)). apply in_map_iff. exists "phi_ex". split; [reflexivity|exact A].
    - change (angle_names ++ dkeys kw) with ("theta_0" :: ("theta_ex" :: "phi_0" :: "phi_ex" :: nil) ++ dkeys kw) in H at 1. cbv iota in H.
      rewrite (bind_symengine_full angle_names) in H by (try reflexivity; exact N). unfold broadcast_arrays in H.
      destruct (bc_shapes _) as [r|] eqn:Er; [|discriminate]. cbn [rbind map] in H. injection H as <-. unfold eval_symengine. cbn [shp app map].
      unfold broadcast_to. cbn [shp]. apply bc_shapes_in in Er. rewrite Forall_forall in Er. apply (Er (n :: nil)). cbn [app map In]. auto 6.
  Qed.
  Lemma weight_ok : exists u, hem_weight n = Ok u /\ shp u = (1%nat :: n :: nil) /\
    forall l k, (k < n)%nat -> bget u (l :: k :: nil) = Fin (sin (gridpt (PI / 2) n k) * cos (gridpt (PI / 2) n k)).
  Proof.
    unfold hem_weight. fold x. destruct (map2_eq xmul (nsin x) (ncos x)) as (u & E & S); [apply ble_refl|]. exists u. split; [exact E|]. split; [exact S|].
    intros l k Hk. rewrite (bget_map2 _ _ _ _ _ E). unfold nsin, ncos. rewrite !bget_map1, x_at by assumption. reflexivity.
  Qed.
  Lemma z_shape r : ble r (n :: n :: nil) -> ble (n :: nil) r -> bc_shape (1%nat :: n :: nil) r = Some (n :: n :: nil).
  Proof.
    intros B1 B2. destruct r as [|d r]; [apply ble_nil_r in B2; discriminate|]. apply ble_cons in B1, B2. destruct B1 as [B1 B3]. destruct B2 as [B2 _].
    assert (d = n) by lia. subst d. cbn [bc_shape]. unfold bc_dim. replace (1 =? n)%nat with false by (symmetry; apply Nat.eqb_neq; lia). cbn [Nat.eqb].
    unfold ble in B3. rewrite bc_shape_comm in B3. change (match bc_shape (n :: nil) r with Some z => Some (n :: z) | None => None end = Some (n :: n :: nil)).
    now rewrite B3.
  Qed.
  Lemma hem_value old th b : azimuth_axis -> call1 comp_of (num th :: x :: num p0 :: y :: nil) kw = Ok b ->
    exists a, (let* u := hem_weight n in let* z := nmul u b in let* t := simps_last old n (2 * PI) z in simps_last old n (PI / 2) t) = Ok a /\
      shp a = nil /\ get a nil = Fin (double_simps (fun t ph => distribution f s th t p0 ph) old n).
  Proof.
    intros A C. destruct (brdf_call th) as (b' & C' & Sb & Vb). assert (b' = b) by congruence. subst b'. pose proof (brdf_axis th b A C) as Ax.
    destruct weight_ok as (u & Eu & Su & Vu). rewrite Eu. cbn [rbind].
    unfold nmul. destruct (map2 xmul u b) as [z|] eqn:Ez; [|unfold map2 in Ez; rewrite Su, (z_shape _ Sb Ax) in Ez; discriminate].
    assert (Sz : shp z = n :: n :: nil) by (unfold map2 in Ez; rewrite Su, (z_shape _ Sb Ax) in Ez; now injection Ez as <-).
    cbn [rbind]. unfold simps_last at 1. rewrite Sz. replace (n =? 0)%nat with false by (symmetry; apply Nat.eqb_neq; lia). rewrite Nat.eqb_refl. cbn [rbind].
    unfold simps_last. cbn [shp]. replace (n =? 0)%nat with false by (symmetry; apply Nat.eqb_neq; lia). rewrite Nat.eqb_refl.
    eexists. split; [reflexivity|]. split; [reflexivity|]. cbn [get]. unfold double_simps. apply simpsX_Fin; [assumption|]. intros k Hk.
    apply simpsX_Fin; [assumption|]. intros l Hl.
    rewrite <- (bget_valid z) by (rewrite Sz; cbn; auto). rewrite (bget_map2 _ _ _ _ _ Ez), Vu, Vb by assumption. reflexivity.
  Qed.
End Brdf.

(** ** The loop over the incidence angles *)
Definition rest (h : heap) : heap := hstrip h.
Lemma rest_scat h h' : rest h = rest h' -> h_scats h = h_scats h' /\ h_be h = h_be h' /\ h_seng h = h_seng h'.
Proof. unfold rest, hstrip. intros H. injection H as H1 H2 H3 H4 H5. auto. Qed.
Lemma rest_step w p : reading p -> rest (w_heap (fst (step w p))) = rest (w_heap w).
Proof.
  intros H. unfold rest.
  assert (F : forall A (g : A -> out) (m : M A), frame m -> hstrip (w_heap (fst (as_out g m w))) = hstrip (w_heap w)).
  { intros A g m Fm. specialize (Fm w). unfold as_out. destruct (m w). exact Fm. }
  destruct p; try destruct H; cbn [step]; apply F.
  - apply fr_m_ang.
  - apply fr_param_val.
  - apply fr_scat_calc.
  - apply fr_gets.
Qed.
Lemma scat_at_same h h' i : h_scats h = h_scats h' -> scat_at h i = scat_at h' i.
Proof. intros E. unfold scat_at. now rewrite E. Qed.

Section Loop.
  Context (sid n : nat) (s : scat) (f : string -> R) (kw : dict (nd xr)) (p0 : R) (old : bool).
  Hypothesis (K : numbers_for kw f s) (NA : no_angles s) (O : ok_scat f s) (Hn : (2 <= n)%nat).
  Definition ready (w : world) : Prop := (exists q, good w q) /\ scat_at (w_heap w) sid = Ok s.
  Lemma ready_next w p : reading p -> ready w -> ready (fst (step w p)).
  Proof.
    intros Rp [[q G] Hs]. split.
    - exists p. assert (good w p) by (apply (good_other w q); [exact G|intros J; now apply reading_adm]). apply good_next; [assumption|]. intros J. now apply reading_adm.
    - destruct (rest_scat _ _ (rest_step w p Rp)) as (E & _). now rewrite (scat_at_same _ _ _ E).
  Qed.
  Lemma hem_one_ok w th : ready w -> azimuth_axis w s -> exists w' a, hem_one old sid p0 n kw th w = (w', Ok a) /\
    shp a = nil /\ get a nil = Fin (double_simps (fun t ph => distribution f s th t p0 ph) old n) /\ ready w' /\ azimuth_axis w' s.
  Proof.
    intros Rw A. pose proof Rw as [[q G] Hs]. set (p := OScatCalc sid (num th) (col_linspace n 0 (PI / 2)) (num p0) (row_linspace n 0 (2 * PI)) kw).
    destruct (brdf_call w n s f kw p0 K NA O Hn th) as (b & Eb & _).
    destruct (hem_value w n s f kw p0 K NA O Hn old th b A Eb) as (a & Ea & Sa & Va).
    pose proof (brdf_eval w q sid n s f kw p0 G Hs K th) as Ev. change (brdf_op sid n kw p0 th) with p in Ev. rewrite Eb in Ev. cbn [outA] in Ev.
    exists (fst (step w p)), a. unfold hem_one. fold p. unfold bind, call_op. destruct (step w p) as [w' o] eqn:Es. cbn [snd] in Ev. subst o.
    unfold lift. rewrite Ea. split; [reflexivity|]. split; [exact Sa|]. split; [exact Va|].
    assert (Fs : fst (step w p) = w') by now rewrite Es. cbn [fst]. split.
    - rewrite <- Fs. now apply ready_next.
    - destruct (rest_scat _ _ (rest_step w p I)) as (_ & E & _). rewrite Fs in E. unfold azimuth_axis in *. now rewrite E.
  Qed.
  Lemma hem_all_ok ths : forall w, ready w -> azimuth_axis w s -> exists w' l, hem_all old sid p0 n kw ths w = (w', Ok l) /\
    Forall2 (fun th a => shp a = nil /\ get a nil = Fin (double_simps (fun t ph => distribution f s th t p0 ph) old n)) ths l.
  Proof.
    induction ths as [|th ths IH]; intros w Rw A.
    - exists w, nil. split; [reflexivity|constructor].
    - destruct (hem_one_ok w th Rw A) as (w1 & a & E1 & Sa & Va & R1 & A1). destruct (IH w1 R1 A1) as (w2 & l & E2 & F).
      exists w2, (a :: l). cbn [hem_all]. unfold bind. rewrite E1, E2. split; [reflexivity|]. constructor; auto.
  Qed.
  Lemma hem_run_ok w norm nrm tmin tmax tstep : ready w -> azimuth_axis w s -> 0 < tstep -> (shp norm = nil \/ shp norm = 1%nat :: nil) -> (forall i, bget norm i = Fin nrm) ->
    exists a m, snd (hem_run old sid norm p0 tmin tmax tstep n kw w) = Ok a /\ shp a = m :: nil /\
      (forall k, (k < m)%nat <-> tmin + INR k * tstep < tmax) /\
      forall k, (k < m)%nat -> get a (k :: nil) =
        Fin (double_simps (fun t ph => distribution f s (deg2rad (tmin + INR k * tstep)) t p0 ph) old n * nrm).
  Proof.
    intros Rw A Hs Sn Vn. unfold hem_run. destruct (arange_spec tmin tmax tstep Hs) as (inc & Ei & Li & Vi).
    destruct (hem_all_ok (map deg2rad inc) w Rw A) as (w' & l & El & F).
    unfold bind, lift. rewrite Ei, El. cbn [snd].
    assert (Ll : length l = length inc) by (apply F2_length in F; rewrite map_length in F; auto).
    assert (exists sol, match l with nil => Ok (mk_nd (0%nat :: nil) (fun _ => NaN)) | _ => stack l end = Ok sol /\ shp sol = length l :: nil /\
      forall k a, nth_error l k = Some a -> get sol (k :: nil) = get a nil) as (sol & Es & Ss & Vs).
    { destruct l as [|a0 l0].
      - eexists. split; [reflexivity|]. split; [reflexivity|]. intros k a H. destruct k; discriminate.
      - assert (Fs : Forall (fun a => shp a = nil) (a0 :: l0)).
        { clear -F. induction F as [|th a ths l [Sa _] _ IH]; constructor; assumption. }
        destruct (stack_total (a0 :: l0) nil ltac:(discriminate) Fs) as (sol & Es). exists sol. split; [exact Es|].
        destruct (stack_spec _ _ Es) as (sh & Hsh & Fsh & V). assert (sh = nil) by (inversion Fs; inversion Fsh; subst; congruence). subst sh.
        split; [exact Hsh|]. intros k a Hk. exact (V k a nil Hk eq_refl). }
    rewrite Es. cbn [rbind]. unfold nmul.
    assert (exists a, map2 xmul sol norm = Ok a /\ shp a = shp sol) as (a & Ea & Sa).
    { apply map2_eq. rewrite Ss. destruct Sn as [-> | ->]; [apply ble_nil|]. apply ble_cons. split; [auto|apply ble_nil]. }
    exists a, (length inc). split; [exact Ea|]. rewrite Sa, Ss, Ll. split; [reflexivity|]. split; [exact Li|].
    intros k Hk. rewrite <- (bget_valid a) by (rewrite Sa, Ss, Ll; cbn; auto). rewrite (bget_map2 _ _ _ _ _ Ea), Vn, (bget_valid sol) by (rewrite Ss, Ll; cbn; auto).
    assert (Hk' : (k < length l)%nat) by lia. destruct (nth_error l k) as [b|] eqn:Eb; [|apply nth_error_None in Eb; lia].
    rewrite (Vs k b Eb). pose proof (Vi k Hk) as Ek.
    assert (X : shp b = nil /\ get b nil = Fin (double_simps (fun t ph => distribution f s (deg2rad (tmin + INR k * tstep)) t p0 ph) old n)).
    { assert (Et : nth_error (map deg2rad inc) k = Some (deg2rad (tmin + INR k * tstep))) by (rewrite nth_error_map, Ek; reflexivity).
      clear -F Et Eb. revert Et. generalize (deg2rad (tmin + INR k * tstep)). intros th0 Et. revert k b Et Eb. induction F as [|th a ths l H _ IH]; intros [|k] b Et Eb; cbn in *; try discriminate.
      - injection Et as ->. injection Eb as ->. exact H.
      - exact (IH k b Et Eb). }
    rewrite (proj2 X). reflexivity.
  Qed.
End Loop.
