(** polarplot as a run of the state machine. *)
From Coquelicot Require Import Coquelicot.
From Coq Require Import Reals Lia Lra List.
From Verif Require Import SpecScat SpecExp SpecInt.
From Verif Require Import Progress CallEq Memo Interact2 Hem Polar.
From Verif Require Export PolarEl.
Open Scope string_scope.
Open Scope list_scope.
Open Scope R_scope.

(** the zenith angles at which the functions are drawn: every hundredth of a radian, the upper half circle for surfaces,
    the full circle for volumes *)
Definition polar_x (surf : bool) (k : nat) : R := (if surf then - (PI / 2) else 0) + INR k * (1 / 100).
Definition polar_end (surf : bool) : R := if surf then PI / 2 else 2 * PI.
Definition is_curve (surf : bool) (y : nd xr) (F : R -> R) : Prop :=
  exists n, shp y = n :: nil /\ (forall k, (k < n)%nat <-> polar_x surf k < polar_end surf) /\
    forall k, (k < n)%nat -> get y (k :: nil) = Fin (F (polar_x surf k)).

Lemma thetas_spec surf : exists l, polar_thetas surf = Ok l /\ (1 < length l)%nat /\ (forall k, (k < length l)%nat <-> polar_x surf k < polar_end surf) /\
  forall k, (k < length l)%nat -> nth k l 0 = polar_x surf k.
Proof.
  assert (H : 0 < 1 / 100) by lra. pose proof PI2_3_2 as P. pose proof PI_RGT_0 as P0.
  assert (X : exists l, polar_thetas surf = Ok l /\ (forall k, (k < length l)%nat <-> polar_x surf k < polar_end surf) /\
    forall k, (k < length l)%nat -> nth_error l k = Some (polar_x surf k)).
  { unfold polar_thetas, polar_x, polar_end. destruct surf; apply arange_spec; assumption. }
  destruct X as (l & E & L & V). exists l. split; [exact E|]. split; [|split; [exact L|]].
  - apply L. unfold polar_x, polar_end. destruct surf; simpl INR; lra.
  - intros k Hk. apply nth_error_nth. now apply V.
Qed.

(** keyword arguments that give numbers to all parameters of [s], under names that are not reserved *)
Definition given_numbers (kw : dict (nd xr)) (f : string -> R) (s : scat) : Prop :=
  NoDup (dkeys kw) /\ (forall k, In k (dkeys kw) -> ~ In k reserved) /\ incl (scat_syms s) (dkeys kw) /\ scalars kw f.
Definition approx_expr (surf : bool) (s : scat) : res expr :=
  if surf then legendre_expansion (ESym "theta_ex") (ESym "theta_s") (ESym "phi_ex") (ESym "phi_s") s
  else legendre_expansion (ESym "theta_0") (ESym "theta_s") (ESym "phi_0") (ESym "phi_s") s.
(** the backend gives one value per angle *)
Definition has_axis (be : backend) (v : string) (e : expr) : Prop := be = Symengine \/ In v (syms e).

Lemma reserved_angs surf (kw : dict (nd xr)) : (forall k, In k (dkeys kw) -> ~ In k reserved) -> NoDup (dkeys kw) ->
  NoDup (angle_names ++ dkeys kw) /\ NoDup (polar_angs surf ++ dkeys kw).
Proof.
  intros H N.
  assert (G : forall l, NoDup l -> incl l reserved -> NoDup (l ++ dkeys kw)).
  { intros l Nl Il. induction l as [|x l IH]; [exact N|]. inversion Nl; subst. cbn [app]. constructor.
    - intros X. apply in_app_or in X. destruct X as [X|X]; [contradiction|]. apply (H x X). apply Il. now left.
    - apply IH; [assumption|]. intros y Hy. apply Il. now right. }
  assert (D : forall l : list string, (if no_dup_b l then True else False) -> NoDup l).
  { intros l Hl. destruct (no_dup_b l) eqn:E; [|destruct Hl]. now apply no_dup_b_NoDup. }
  split; apply G.
  - apply D. exact I.
  - intros x Hx. unfold angle_names in Hx. cbn [In] in Hx. unfold reserved. cbn [In]. tauto.
  - apply D. destruct surf; exact I.
  - intros x Hx. unfold reserved. destruct surf; cbn [polar_angs In] in *; tauto.
Qed.

Section Run.
  Context (surf : bool) (sid : nat) (s : scat) (h0 : heap).
  Hypothesis (Hs : scat_at h0 sid = Ok s).
  Definition runs (w : world) : Prop := (exists q, good w q) /\ rest (w_heap w) = rest h0.
  Lemma runs_next w p : reading p -> runs w -> runs (fst (step w p)).
  Proof.
    intros Rp [[q G] E]. split.
    - exists p. assert (good w p) by (apply (good_other w q); [exact G|intros J; now apply reading_adm]). apply good_next; [assumption|]. intros J. now apply reading_adm.
    - now rewrite rest_step.
  Qed.
  Lemma runs_scat w : runs w -> scat_at (w_heap w) sid = Ok s /\ h_be (w_heap w) = h_be h0 /\ h_seng (w_heap w) = h_seng h0.
  Proof. intros [_ E]. destruct (rest_scat _ _ E) as (A & B & C). rewrite (scat_at_same _ _ _ A). auto. Qed.

  Context (l : list R).
  Hypothesis (Ll : (1 < length l)%nat) (Lx : forall k, (k < length l)%nat <-> polar_x surf k < polar_end surf) (Lv : forall k, (k < length l)%nat -> nth k l 0 = polar_x surf k).
  Context (kw : dict (nd xr)) (f : string -> R).
  Hypothesis (K : given_numbers kw f s) (O : ok_scat f s).

  Lemma drawn_row y : shp y = length l :: nil -> drawn (row_of l) y = Ok y.
  Proof. intros E. unfold drawn, row_of. cbn [shp]. rewrite E, Nat.eqb_refl. reflexivity. Qed.
  Lemma drawn_scalar y : shp y = nil -> drawn (row_of l) y = Err ValueError.
  Proof. intros E. unfold drawn, row_of. cbn [shp]. rewrite E. destruct (Nat.eqb_spec (length l) 1); [lia|reflexivity]. Qed.
  Lemma curve_of y F : shp y = length l :: nil -> (forall j, (j < length l)%nat -> get y (j :: nil) = Fin (F (nth j l 0))) -> is_curve surf y F.
  Proof. intros S V. exists (length l). split; [exact S|]. split; [exact Lx|]. intros k Hk. rewrite V, Lv by assumption. reflexivity. Qed.
  Lemma k_no_angles : no_angles s.
  Proof. intros x Hx. destruct K as (_ & R & I & _). apply I, R in Hx. intros A. apply Hx. unfold reserved. unfold angle_syms in A. cbn [In] in *. tauto. Qed.

  (** the solid line *)
  Definition solid (ti : R) : op := OScatCalc sid (num ti) (row_of l) (num 0) (num 0) kw.
  Lemma solid_incl : incl (syms (phase_function s)) (angle_names ++ dkeys kw).
  Proof.
    destruct K as (_ & _ & I & _). intros z Hz. apply (phase_over (fun v => In v (angle_names ++ dkeys kw))) with (s := s); [| |exact Hz].
    - intros v Hv. apply in_or_app. auto.
    - intros v Hv. apply in_or_app. right. now apply I.
  Qed.
  Lemma solid_call w ti : runs w -> exists b, snd (step w (solid ti)) = RetArr b /\
    (has_axis (h_be h0) "theta_ex" (phase_function s) -> shp b = length l :: nil) /\
    (h_be h0 = Sympy -> ~ In "theta_ex" (syms (phase_function s)) -> shp b = nil) /\
    forall j, (j < length l)%nat -> bget b (j :: nil) = Fin (phase_value (dirs f ti (nth j l 0) 0 0) s).
  Proof.
    intros Rw. destruct (runs_scat w Rw) as (Es & Eb & Eg). destruct Rw as [[q G] _]. pose proof K as (N & R & I & Sc). destruct (reserved_angs surf kw R N) as [Na _].
    assert (G' : good w (solid ti)) by (apply (good_other w q); [exact G|intros J; exact Logic.I]).
    assert (Ev : snd (step w (solid ti)) = outA (call1 (mk_comp (h_be h0) (angle_names ++ dkeys kw) (phase_function s :: nil)) (num ti :: row_of l :: num 0 :: num 0 :: nil) kw)).
    { destruct (good_eval _ _ G') as (_ & -> & _). unfold solid. rewrite eval_scat, Es. cbn [rbind]. rewrite lambdify_total; [rewrite Eb; reflexivity| | |].
      - exact (proj2 (good_keys w q G)).
      - exact Na.
      - unfold all_syms. cbn [flat_map]. rewrite app_nil_r. exact solid_incl. }
    destruct (line_call "theta_0" "theta_ex" "phi_0" "phi_ex" kw f l (h_be h0) (phase_function s) Na Sc solid_incl ti) as (b & Cb & Sb & Vb).
    { intros j _. apply wd_phase. apply (ok_scat_ext f); [|exact O]. intros z Hz. symmetry. change (dirs f ti (nth j l 0) 0 0 z = f z). now apply dirs_other, k_no_angles. }
    exists b. split. { rewrite Ev. change (angle_names ++ dkeys kw) with (("theta_0" :: "theta_ex" :: "phi_0" :: "phi_ex" :: nil) ++ dkeys kw). rewrite Cb. reflexivity. }
    split; [|split].
    - intros Ax. now apply (line_axis "theta_0" "theta_ex" "phi_0" "phi_ex" kw l (h_be h0) (phase_function s) Na ti).
    - intros E0 Nx. now apply (line_flat "theta_0" "theta_ex" "phi_0" "phi_ex" kw f l (h_be h0) (phase_function s) Na Sc ti).
    - intros j Hj. rewrite Vb by assumption. rewrite ev_phase. reflexivity.
  Qed.

  (** the dashed line *)
  Context (e : expr).
  Hypothesis (He : approx_expr surf s = Ok e) (Oe : ok_exp f s) (Nc : exists n, ncoefs s = Ok n).
  Lemma dash_eq : exists a b c d, polar_angs surf = a :: b :: c :: d :: nil /\ b = "theta_s" /\ legendre_expansion (ESym a) (ESym b) (ESym c) (ESym d) s = Ok e.
  Proof. unfold approx_expr, polar_angs in *. destruct surf; do 4 eexists; (split; [reflexivity|split; [reflexivity|exact He]]). Qed.
  Lemma dash_incl : incl (syms e) (polar_angs surf ++ dkeys kw).
  Proof.
    destruct dash_eq as (a & b & c & d & Ea & _ & X). destruct Nc as [n Hn]. destruct K as (_ & _ & I & _). rewrite Ea.
    apply (exp_over (fun v => In v ((a :: b :: c :: d :: nil) ++ dkeys kw)) _ _ _ _ s n e) in X; auto;
      try (intros v [<-|[]]; cbn [app In]; auto 6).
    intros v Hv _. apply in_or_app. right. now apply I.
  Qed.
  Lemma k_no_n : no_n s.
  Proof. intros X. destruct K as (_ & R & I & _). apply I, R in X. apply X. cbn [reserved In]. auto. Qed.
  Lemma dash_other ti x v : In v (scat_syms s) -> line_env (polar_angs surf) f ti x v = f v.
  Proof.
    intros Hv. destruct K as (_ & R & I & _). apply I, R in Hv. unfold reserved in Hv. cbn [In] in Hv. unfold line_env, polar_angs.
    destruct surf; repeat (match goal with |- (if String.eqb ?y ?z then _ else _) = _ => destruct (String.eqb_spec y z) as [->|]; [exfalso; tauto|] end); reflexivity.
  Qed.
  Lemma dash_call ti : exists b, call1 (mk_comp (h_be h0) (polar_angs surf ++ dkeys kw) (e :: nil)) (num ti :: row_of l :: num 0 :: num 0 :: nil) kw = Ok b /\
    (has_axis (h_be h0) "theta_s" e -> shp b = length l :: nil) /\
    (h_be h0 = Sympy -> ~ In "theta_s" (syms e) -> shp b = nil) /\
    forall j, (j < length l)%nat -> bget b (j :: nil) = Fin (expansion_value f s ti (nth j l 0) 0 0).
  Proof.
    pose proof K as (N & R & I & Sc). destruct (reserved_angs surf kw R N) as [_ Na]. pose proof dash_incl as Di.
    destruct dash_eq as (a & b & c & d & Ea & -> & X). destruct Nc as [n Hn].
    assert (MB : Forall is_basic (members s)) by (eapply lexp_basic_members; exact X).
    assert (Hd : forall v y, In v (scat_syms s) -> line_env (a :: "theta_s" :: c :: d :: nil) f ti y v = f v) by (intros v y Hv; rewrite <- Ea; now apply dash_other).
    rewrite Ea in *.
    destruct (line_call a "theta_s" c d kw f l (h_be h0) e Na Sc Di ti) as (bb & Cb & Sb & Vb).
    { intros j _. apply (exp_wd _ _ _ _ _ s n e) with (7 := X); auto; try exact Logic.I; [apply k_no_n|].
      apply (ok_exp_ext f); [exact MB| |exact Oe]. intros v Hv. symmetry. now apply Hd. }
    exists bb. split; [exact Cb|]. split; [|split].
    - intros Ax. now apply (line_axis a "theta_s" c d kw l (h_be h0) e Na ti).
    - intros E0 Nx. now apply (line_flat a "theta_s" c d kw f l (h_be h0) e Na Sc ti).
    - intros j Hj. rewrite Vb by assumption. f_equal. rewrite (ev_expansion _ _ _ _ _ s e X k_no_n). cbn [evalR].
      assert (Z : (a <> "theta_s" /\ a <> c /\ a <> d) /\ ("theta_s" <> c /\ "theta_s" <> d) /\ c <> d).
      { unfold polar_angs in Ea. destruct surf; injection Ea as <- <- <-; repeat split; discriminate. }
      destruct Z as ((Z1 & Z2 & Z3) & (Z4 & Z5) & Z6). cbn [line_env].
      assert (EQ : forall x y, x <> y -> String.eqb x y = false) by (intros; now apply String.eqb_neq).
      rewrite !String.eqb_refl. rewrite (EQ "theta_s" a), (EQ c a), (EQ c "theta_s"), (EQ d a), (EQ d "theta_s"), (EQ d c) by auto.
      apply expansion_value_ext; [exact MB|]. intros v Hv. exact (Hd v (nth j l 0) Hv).
  Qed.
End Run.
