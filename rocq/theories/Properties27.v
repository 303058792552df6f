(** polarplot: what is drawn, and how far the two lines are apart. *)
From Coquelicot Require Import Coquelicot.
From Coq Require Import Reals Lia Lra List.
From Verif Require Import SpecScat SpecExp SpecInt.
From Verif Require Import Progress CallEq Memo Interact2 Hem Polar.
From Verif Require Export PolarRun Properties25.
Open Scope string_scope.
Open Scope list_scope.
Open Scope R_scope.

Lemma F2_impl {A B} (P Q : A -> B -> Prop) l l' : (forall a b, P a b -> Q a b) -> Forall2 P l l' -> Forall2 Q l l'.
Proof. intros H F. induction F; constructor; auto. Qed.

(** ** Vocabulary *)
(** the approximation is drawn if it is asked for and ncoefs is known *)
Definition knows_ncoefs (s : scat) : Prop := exists n, ncoefs s = Ok n.
(** no combinations of combinations, at least one coefficient, finite coefficients *)
Definition expandable (f : string -> R) (s : scat) : Prop := Forall is_basic (members s) /\ (forall n, ncoefs s = Ok n -> (0 < n)%nat) /\ ok_exp f s.
(** under sympy, a function that does not mention the exit zenith angle is a single number, not a curve *)
Definition makes_curves (w : world) (surf ap : bool) (s : scat) : Prop :=
  h_be (w_heap w) = Symengine \/
  In "theta_ex" (syms (phase_function s)) /\ (ap = true -> forall e, approx_expr surf s = Ok e -> In "theta_s" (syms e)).
(** the two lines shown for incidence angle [i] (in degrees) and parameter values [f] *)
Definition lines_ok (surf ap : bool) (s : scat) (f : string -> R) (i : R) (l : nd xr * option (nd xr)) : Prop :=
  is_curve surf (fst l) (fun th => phase_value (dirs f (deg2rad i) th 0 0) s) /\
  match snd l with
  | Some d => ap = true /\ knows_ncoefs s /\ is_curve surf d (fun th => expansion_value f s (deg2rad i) th 0 0)
  | None => ~ (ap = true /\ knows_ncoefs s)
  end.

Section Plot.
  Context (surf : bool) (sid : nat) (s : scat) (h0 : heap) (l : list R).
  Hypothesis (Hs : scat_at h0 sid = Ok s).
  Hypothesis (Ll : (1 < length l)%nat) (Lx : forall k, (k < length l)%nat <-> polar_x surf k < polar_end surf) (Lv : forall k, (k < length l)%nat -> nth k l 0 = polar_x surf k).
  (** [c]: the compiled approximation, if it is drawn *)
  Definition comp_ok (c : option compiled) (kw : dict (nd xr)) : Prop :=
    match c with
    | None => True
    | Some k => exists e, approx_expr surf s = Ok e /\ k = mk_comp (h_be h0) (polar_angs surf ++ dkeys kw) (e :: nil) /\ has_axis (h_be h0) "theta_s" e
    end.
  Lemma get_row b n F : shp b = n :: nil -> (forall j, (j < n)%nat -> bget b (j :: nil) = Fin (F j)) -> forall j, (j < n)%nat -> get b (j :: nil) = Fin (F j).
  Proof. intros S V j Hj. rewrite <- (bget_valid b) by (rewrite S; cbn; auto). auto. Qed.
  Lemma polar_line_ok w kw f c ti : runs h0 w -> given_numbers kw f s -> ok_scat f s -> has_axis (h_be h0) "theta_ex" (phase_function s) ->
    comp_ok c kw -> (c <> None -> ok_exp f s /\ knows_ncoefs s) ->
    exists w' y d, polar_line sid c (row_of l) kw ti w = (w', Ok (y, d)) /\ runs h0 w' /\
      is_curve surf y (fun th => phase_value (dirs f ti th 0 0) s) /\
      match d with Some d => c <> None /\ is_curve surf d (fun th => expansion_value f s ti th 0 0) | None => c = None end.
  Proof.
    intros Rw K O Ax Cc Okc. destruct (solid_call surf sid s h0 Hs l kw f K O w ti Rw) as (b & Eb & Sb & _ & Vb). specialize (Sb Ax).
    pose proof (runs_next h0 w (solid sid l kw ti) Logic.I Rw) as Rw'.
    assert (Cy : is_curve surf b (fun th => phase_value (dirs f ti th 0 0) s)).
    { apply (curve_of surf l Lx Lv b _ Sb). exact (get_row b _ _ Sb Vb). }
    unfold polar_line, bind, call_op. change (OScatCalc sid (num ti) (row_of l) (num 0) (num 0) kw) with (solid sid l kw ti).
    destruct (step w (solid sid l kw ti)) as [w' o] eqn:Es. cbn [snd fst] in Eb, Rw'. subst o. unfold lift.
    destruct c as [k|].
    - destruct Cc as (e & He & -> & Ae). destruct (Okc ltac:(discriminate)) as [Oe Nc].
      destruct (dash_call surf s h0 l Lx Lv kw f K e He Oe Nc ti) as (a & Ca & Sa & _ & Va). specialize (Sa Ae). rewrite Ca. cbn [rbind].
      destruct (squeeze_id a _ Sa ltac:(lia)) as [Ssq Vsq]. rewrite (drawn_row l b Sb). cbn [rbind]. rewrite (drawn_row l _ Ssq). cbn [rbind].
      exists w', b, (Some (squeeze a)). split; [reflexivity|]. split; [exact Rw'|]. split; [exact Cy|]. split; [discriminate|].
      apply (curve_of surf l Lx Lv _ _ Ssq). intros j Hj. rewrite Vsq. exact (get_row a _ _ Sa Va j Hj).
    - cbn [rbind]. rewrite (drawn_row l b Sb). cbn [rbind]. exists w', b, None. auto.
  Qed.
  Lemma polar_lines_ok kw f c inc : given_numbers kw f s -> ok_scat f s -> has_axis (h_be h0) "theta_ex" (phase_function s) ->
    comp_ok c kw -> (c <> None -> ok_exp f s /\ knows_ncoefs s) -> forall w, runs h0 w ->
    exists w' ls, polar_lines sid c (row_of l) kw inc w = (w', Ok ls) /\ runs h0 w' /\
      Forall2 (fun i yd => is_curve surf (fst yd) (fun th => phase_value (dirs f (deg2rad i) th 0 0) s) /\
        match snd yd with Some d => c <> None /\ is_curve surf d (fun th => expansion_value f s (deg2rad i) th 0 0) | None => c = None end) inc ls.
  Proof.
    intros K O Ax Cc Okc. induction inc as [|i inc IH]; intros w Rw.
    - exists w, nil. split; [reflexivity|]. split; [exact Rw|constructor].
    - destruct (polar_line_ok w kw f c (deg2rad i) Rw K O Ax Cc Okc) as (w1 & y & d & E1 & R1 & Y1 & D1). destruct (IH w1 R1) as (w2 & ls & E2 & R2 & F2).
      exists w2, ((y, d) :: ls). cbn [polar_lines]. unfold bind. rewrite E1, E2. split; [reflexivity|]. split; [exact R2|]. constructor; [split; assumption|exact F2].
  Qed.
  Lemma polar_sets_ok ap inc pds fs :
    Forall2 (fun kw f => given_numbers kw f s /\ ok_scat f s /\ (ap = true -> expandable f s)) pds fs ->
    has_axis (h_be h0) "theta_ex" (phase_function s) -> (ap = true -> forall e, approx_expr surf s = Ok e -> has_axis (h_be h0) "theta_s" e) -> (ap = true -> knows_ncoefs s) ->
    (h_be h0 = Symengine -> h_seng h0 = true) -> forall w, runs h0 w ->
    exists w' lls, polar_sets surf sid ap (row_of l) inc pds w = (w', Ok lls) /\ runs h0 w' /\
      Forall2 (fun f ls => Forall2 (fun i yd => is_curve surf (fst yd) (fun th => phase_value (dirs f (deg2rad i) th 0 0) s) /\
        match snd yd with Some d => ap = true /\ is_curve surf d (fun th => expansion_value f s (deg2rad i) th 0 0) | None => ap = false end) inc ls) fs lls.
  Proof.
    intros F Ax Ae Kn Sg. induction F as [|kw f pds fs (K & O & Ex) F IH]; intros w Rw.
    - exists w, nil. split; [reflexivity|]. split; [exact Rw|constructor].
    - assert (C : exists c, (if ap then (do c <- polar_approx surf sid (dkeys kw) ;; ret (Some c)) else ret None) w = (w, Ok c) /\ comp_ok c kw /\ (if ap then c <> None else c = None)).
      { destruct ap; [|exists None; repeat split]. destruct (Ex eq_refl) as (MB & Pn & Oe). destruct (Kn eq_refl) as [n Hn].
        destruct (runs_scat sid s h0 Hs w Rw) as (Es & Eb & Eg).
        assert (Y : exists e, approx_expr surf s = Ok e) by (unfold approx_expr; destruct surf; apply (expansion_ok _ _ _ _ s n MB Hn); intros _; now apply Pn).
        destruct Y as [e He]. exists (Some (mk_comp (h_be h0) (polar_angs surf ++ dkeys kw) (e :: nil))). split; [|split; [|discriminate]].
        - unfold bind, polar_approx, gets, ret. rewrite Es. cbn [rbind].
          assert (Le : match polar_angs surf with a :: b :: c :: d :: nil => legendre_expansion (ESym a) (ESym b) (ESym c) (ESym d) s | _ => Err Unmodelled end = Ok e)
            by (unfold approx_expr in He; destruct surf; exact He).
          rewrite Le. cbn [rbind]. rewrite Eb, Eg. pose proof K as (N & R & _). rewrite lambdify_total; [reflexivity|exact Sg|now apply (reserved_angs surf kw R N)|].
          unfold all_syms. cbn [flat_map]. rewrite app_nil_r. eapply dash_incl; try eassumption. exists n. exact Hn.
        - exists e. split; [exact He|]. split; [reflexivity|]. now apply Ae. }
      destruct C as (c & Ec & Cc & Cap).
      assert (Ok' : c <> None -> ok_exp f s /\ knows_ncoefs s) by (intros Z; destruct ap; [split; [apply Ex; reflexivity|now apply Kn]|contradiction]).
      destruct (polar_lines_ok kw f c inc K O Ax Cc Ok' w Rw) as (w1 & ls & E1 & R1 & F1). destruct (IH w1 R1) as (w2 & lls & E2 & R2 & F2).
      exists w2, (ls :: lls). cbn [polar_sets]. unfold bind at 1. rewrite Ec. unfold bind. rewrite E1, E2. split; [reflexivity|]. split; [exact R2|]. constructor; [|exact F2].
      eapply F2_impl; [|exact F1]. cbv beta. intros i yd [Y D]. split; [exact Y|]. destruct (snd yd); destruct ap; try (destruct D as [D1 D2]); try (split; [reflexivity|assumption]); congruence.
  Qed.
End Plot.

(** *** C74.  The lines drawn by polarplot. *)
Theorem C74_polarplot_lines : forall w q surf sid s inc ap pds fs,
  good w q -> scat_at (w_heap w) sid = Ok s ->
  Forall2 (fun kw f => given_numbers kw f s /\ ok_scat f s /\ (ap = true -> expandable f s)) pds fs ->
  makes_curves w surf ap s ->
  exists lls, snd (polarplot surf sid inc ap pds w) = Ok lls /\ Forall2 (fun f ls => Forall2 (lines_ok surf ap s f) inc ls) fs lls.
Proof.
  intros w q surf sid s inc ap pds fs G Hs F Mc. unfold polarplot, bind, gets. rewrite Hs.
  set (ap' := andb ap match ncoefs s with Ok _ => true | Err _ => false end).
  assert (Hap : ap' = true <-> ap = true /\ knows_ncoefs s).
  { unfold ap', knows_ncoefs. rewrite Bool.andb_true_iff. destruct (ncoefs s) as [n|]; split; intros [A B]; split; auto; try discriminate; [exists n; reflexivity|destruct B; discriminate]. }
  assert (Rq : forallb (fun kw => subset_b (polar_required s) (dkeys kw)) pds = true).
  { apply forallb_forall. intros kw Hk. apply subset_b_incl. intros v Hv. unfold polar_required in Hv. apply filter_In in Hv. destruct Hv as [Hv Nv].
    assert (exists f, given_numbers kw f s) as [f (N & R & I & _)].
    { clear - F Hk. induction F as [|k f pds fs (K & _) F IH]; [destruct Hk|]. destruct Hk as [<-|Hk]; [exists f; exact K|auto]. }
    assert (X : In v (angle_names ++ dkeys kw)).
    { apply (phase_over (fun v => In v (angle_names ++ dkeys kw))) with (s := s); [| |exact Hv]; intros z Hz; apply in_or_app; [auto|right; now apply I]. }
    apply in_app_or in X. destruct X as [X|X]; [|exact X]. exfalso. apply Bool.negb_true_iff in Nv. apply mem_not_In in Nv. contradiction. }
  rewrite Rq. cbn [negb]. destruct (thetas_spec surf) as (l & El & Ll & Lx & Lv). unfold lift. rewrite El.
  assert (Rw : runs (w_heap w) w) by (split; [exists q; exact G|reflexivity]).
  destruct (polar_sets_ok surf sid s (w_heap w) l Hs Ll Lx Lv ap' inc pds fs) with (w := w) as (w' & lls & E & _ & F2).
  - eapply F2_impl; [|exact F]. cbv beta. intros kw f (A & B & C). split; [exact A|]. split; [exact B|]. intros Z. apply C. now apply Hap.
  - destruct Mc as [Mc|[Mc _]]; [left|right]; assumption.
  - intros Z e He. destruct Mc as [Mc|[_ Mc]]; [now left|right]. apply Mc; [now apply Hap|exact He].
  - intros Z. now apply Hap.
  - exact (proj2 (good_keys w q G)).
  - exact Rw.
  - rewrite E. exists lls. split; [reflexivity|]. eapply F2_impl; [|exact F2]. cbv beta. intros f ls F3. eapply F2_impl; [|exact F3]. cbv beta.
    intros i [y d] [Y D]. cbn [fst snd] in *. split; [exact Y|]. destruct d as [d|]; cbn [snd].
    + destruct D as [D1 D2]. apply Hap in D1. tauto.
    + intros Z. apply Hap in Z. congruence.
Qed.
Print Assumptions C74_polarplot_lines.

(** *** C73.  The intended property: the lines are drawn under either backend. *)
Definition C73_intended : Prop := forall w q surf sid s inc ap pds fs,
  good w q -> scat_at (w_heap w) sid = Ok s ->
  Forall2 (fun kw f => given_numbers kw f s /\ ok_scat f s /\ (ap = true -> expandable f s)) pds fs ->
  exists lls, snd (polarplot surf sid inc ap pds w) = Ok lls /\ Forall2 (fun f ls => Forall2 (lines_ok surf ap s f) inc ls) fs lls.
(** Under sympy, a function (or an approximation) that does not depend on the exit zenith angle is evaluated to one
    number, which cannot be drawn against the angles. *)
Theorem C73_single_number : forall w q surf sid s i inc ap kw pds f,
  good w q -> scat_at (w_heap w) sid = Ok s -> given_numbers kw f s -> ok_scat f s -> (ap = true -> expandable f s) ->
  (forall kw', In kw' pds -> incl (scat_syms s) (dkeys kw')) ->
  h_be (w_heap w) = Sympy ->
  ~ In "theta_ex" (syms (phase_function s)) \/
    ap = true /\ knows_ncoefs s /\ (forall e, approx_expr surf s = Ok e -> ~ In "theta_s" (syms e)) ->
  snd (polarplot surf sid (i :: inc) ap (kw :: pds) w) = Err ValueError.
Proof.
  intros w q surf sid s i inc ap kw pds f G Hs K O Ex Kp Be Flat. unfold polarplot, bind at 1, gets. rewrite Hs.
  set (ap' := andb ap match ncoefs s with Ok _ => true | Err _ => false end).
  assert (Hap : ap' = true <-> ap = true /\ knows_ncoefs s).
  { unfold ap', knows_ncoefs. rewrite Bool.andb_true_iff. destruct (ncoefs s) as [n|]; split; intros [A B]; split; auto; try discriminate; [exists n; reflexivity|destruct B; discriminate]. }
  assert (Rq : forallb (fun kw => subset_b (polar_required s) (dkeys kw)) (kw :: pds) = true).
  { apply forallb_forall. intros kw' Hk. apply subset_b_incl. intros v Hv. unfold polar_required in Hv. apply filter_In in Hv. destruct Hv as [Hv Nv].
    assert (I : incl (scat_syms s) (dkeys kw')) by (destruct Hk as [<-|Hk]; [apply K|auto]).
    assert (X : In v (angle_names ++ dkeys kw')).
    { apply (phase_over (fun v => In v (angle_names ++ dkeys kw'))) with (s := s); [| |exact Hv]; intros z Hz; apply in_or_app; [auto|right; now apply I]. }
    apply in_app_or in X. destruct X as [X|X]; [|exact X]. exfalso. apply Bool.negb_true_iff in Nv. apply mem_not_In in Nv. contradiction. }
  rewrite Rq. cbn [negb]. destruct (thetas_spec surf) as (l & El & Ll & Lx & Lv). unfold lift, bind at 1. rewrite El.
  assert (Rw : runs (w_heap w) w) by (split; [exists q; exact G|reflexivity]).
  destruct (solid_call surf sid s (w_heap w) Hs l kw f K O w (deg2rad i) Rw) as (b & Eb & Sb & Fb & _).
  assert (Ln : forall c, (forall k, c = Some k -> exists a, call1 k (num (deg2rad i) :: row_of l :: num 0 :: num 0 :: nil) kw = Ok a /\
      (In "theta_ex" (syms (phase_function s)) -> shp a = nil)) -> (In "theta_ex" (syms (phase_function s)) -> c <> None) ->
    snd (polar_line sid c (row_of l) kw (deg2rad i) w) = Err ValueError).
  { intros c Hc Hn. unfold polar_line, bind, call_op. change (OScatCalc sid (num (deg2rad i)) (row_of l) (num 0) (num 0) kw) with (solid sid l kw (deg2rad i)).
    destruct (step w (solid sid l kw (deg2rad i))) as [w' o]. cbn [snd] in Eb. subst o. unfold lift. cbn [snd].
    destruct (in_dec string_dec "theta_ex" (syms (phase_function s))) as [It|It].
    - destruct c as [k|]; [|now destruct (Hn It)]. destruct (Hc k eq_refl) as (a & -> & Sa). cbn [rbind].
      rewrite (drawn_row l b) by (apply Sb; now right). cbn [rbind]. rewrite (drawn_scalar l Ll (squeeze a)); [reflexivity|]. apply squeeze_nil. auto.
    - assert (Db : drawn (row_of l) b = Err ValueError) by (apply drawn_scalar; auto). destruct c as [k|].
      + destruct (Hc k eq_refl) as (a & -> & _). cbn [rbind]. rewrite Db. reflexivity.
      + cbn [rbind]. rewrite Db. reflexivity. }
  cbn [polar_sets]. unfold bind at 1.
  assert (C : exists c, (if ap' then (do c <- polar_approx surf sid (dkeys kw) ;; ret (Some c)) else ret None) w = (w, Ok c) /\
    (forall k, c = Some k -> exists a, call1 k (num (deg2rad i) :: row_of l :: num 0 :: num 0 :: nil) kw = Ok a /\ (In "theta_ex" (syms (phase_function s)) -> shp a = nil)) /\
    (In "theta_ex" (syms (phase_function s)) -> c <> None)).
  { destruct ap' eqn:Ea.
    - destruct (proj1 Hap eq_refl) as [Et Kn]. destruct (Ex Et) as (MB & Pn & Oe). pose proof Kn as [n Hn].
      assert (Y : exists e, approx_expr surf s = Ok e) by (unfold approx_expr; destruct surf; apply (expansion_ok _ _ _ _ s n MB Hn); intros _; now apply Pn).
      destruct Y as [e He]. exists (Some (mk_comp (h_be (w_heap w)) (polar_angs surf ++ dkeys kw) (e :: nil))). split; [|split; [|discriminate]].
      + unfold bind, polar_approx, gets, ret. rewrite Hs. cbn [rbind].
        assert (Le : match polar_angs surf with a :: b :: c :: d :: nil => legendre_expansion (ESym a) (ESym b) (ESym c) (ESym d) s | _ => Err Unmodelled end = Ok e)
          by (unfold approx_expr in He; destruct surf; exact He).
        rewrite Le. cbn [rbind]. pose proof K as (N & R & _). rewrite lambdify_total; [reflexivity|exact (proj2 (good_keys w q G))|now apply (reserved_angs surf kw R N)|].
        unfold all_syms. cbn [flat_map]. rewrite app_nil_r. eapply dash_incl; eassumption.
      + intros k Ek. injection Ek as <-. destruct (dash_call surf s (w_heap w) l Lx Lv kw f K e He Oe Kn (deg2rad i)) as (a & Ca & _ & Sa & _).
        exists a. split; [exact Ca|]. intros It. apply Sa; [exact Be|]. destruct Flat as [Fl|(_ & _ & Fl)]; [contradiction|now apply Fl].
    - exists None. split; [reflexivity|]. split; [discriminate|]. intros It. exfalso. destruct Flat as [Fl|(A & B & _)]; [contradiction|].
      assert (false = true) by (apply Hap; auto). discriminate. }
  destruct C as (c & -> & C1 & C2). unfold bind at 1. cbn [polar_lines]. unfold bind at 1. specialize (Ln c C1 C2).
  destruct (polar_line sid c (row_of l) kw (deg2rad i) w) as [w' r]. cbn [snd] in Ln. subst r. reflexivity.
Qed.
Print Assumptions C73_single_number.

Lemma iso_given : given_numbers nil (fun _ => 0) (SIso a_one).
Proof. split; [constructor|]. split; [intros k []|]. split; [intros x []|intros k a []]. Qed.
Lemma iso_no_line w : w = wIso false -> snd (polarplot true 0 (15 :: nil) false (nil :: nil) w) = Err ValueError.
Proof.
  intros Ew. destruct iso_facts as (_ & _ & F3 & _). apply (C73_single_number w OGetBackend true 0%nat (SIso a_one) 15 nil false nil nil (fun _ => 0)).
  - rewrite Ew. apply wIso_good.
  - rewrite Ew. reflexivity.
  - apply iso_given.
  - exact F3.
  - discriminate.
  - intros kw' [].
  - rewrite Ew. reflexivity.
  - left. vm_compute. tauto.
Qed.
Theorem C73_refuted : ~ C73_intended.
Proof.
  intros H. destruct iso_facts as (_ & _ & F3 & _). remember (wIso false) as w eqn:Ew.
  destruct (H w OGetBackend true 0%nat (SIso a_one) (15 :: nil) false (nil :: nil) ((fun _ => 0) :: nil)) as (lls & E & _).
  - rewrite Ew. apply wIso_good.
  - rewrite Ew. reflexivity.
  - constructor; [|constructor]. split; [apply iso_given|]. split; [exact F3|discriminate].
  - rewrite (iso_no_line w Ew) in E. discriminate E.
Qed.
Print Assumptions C73_refuted.

(** *** C75.  The dashed line approaches the solid line as ncoefs grows. *)
Lemma finer_phase N s s' : finer N s s' -> phase_function s' = phase_function s.
Proof.
  revert s'. induction s as [a|a|t nc a|t nc a|a|j nc a|t nc a|t nc a|cs a IH] using scat_ind'; intros s' F; inversion F; subst; cbn [phase_function]; unfold scattering_angle_symbolic; cbn [scat_a];
    lazymatch goal with |- fold_left _ ?x _ = fold_left _ ?y _ => idtac | |- ?x = ?x => exact eq_refl end.
  match goal with X : Forall2 _ cs ?y |- _ => rename X into H; rename y into cs' end. clear F.
  generalize (ENum 0). revert cs' H. induction IH as [|c cs Hc _ IHc]; intros cs' H z; inversion H; subst; [reflexivity|].
  match goal with X : _ /\ _ |- _ => destruct X as [E1 E2] end. cbn [fold_left]. rewrite <- E1, (Hc _ E2). now apply IHc.
Qed.
Theorem C75_approximation_converges : forall s fs eps, 0 < eps -> no_angles s -> Forall (fun f => smooth f s) fs ->
  exists N, forall s' w q surf sid inc pds, finer N s s' -> good w q -> scat_at (w_heap w) sid = Ok s' ->
    Forall2 (fun kw f => given_numbers kw f s' /\ ok_scat f s' /\ expandable f s') pds fs -> knows_ncoefs s' -> makes_curves w surf true s' ->
    exists lls, snd (polarplot surf sid inc true pds w) = Ok lls /\ length lls = length pds /\
      Forall (fun ls => length ls = length inc /\ Forall (fun l => exists d n, snd l = Some d /\ shp (fst l) = n :: nil /\ shp d = n :: nil /\
        forall k, (k < n)%nat -> exists y z, get (fst l) (k :: nil) = Fin y /\ get d (k :: nil) = Fin z /\ Rabs (z - y) <= eps) ls) lls.
Proof.
  intros s fs eps He NA Sm.
  assert (X : exists N, forall s', finer N s s' -> Forall (fun f => forall t0 tex p0 pex, Rabs (expansion_value f s' t0 tex p0 pex - distribution f s t0 tex p0 pex) <= eps) fs).
  { induction Sm as [|f fs Hf _ [N HN]]; [exists 0%nat; constructor|]. destruct (expansion_close f s eps NA Hf He) as [M HM].
    exists (Nat.max M N). intros s' F. constructor; [apply HM|apply HN]; (eapply finer_mono; [|exact F]); lia. }
  destruct X as [N HN]. exists N. intros s' w q surf sid inc pds F G Hs Fp Kn Mc.
  destruct (C74_polarplot_lines w q surf sid s' inc true pds fs G Hs) as (lls & E & FL); [|exact Mc|].
  { eapply F2_impl; [|exact Fp]. cbv beta. tauto. }
  exists lls. split; [exact E|]. split; [apply F2_length in FL; apply F2_length in Fp; congruence|].
  specialize (HN s' F). pose proof (finer_phase _ _ _ F) as Ph. clear - FL HN Kn Ph.
  induction FL as [|f ls fs lls Hl _ IH]; [constructor|]. inversion HN as [|? ? Hf HN']; subst. constructor; [|now apply IH].
  split; [apply F2_length in Hl; auto|]. clear - Hl Hf Kn Ph. induction Hl as [|i [y d] inc ls (Y & D) _ IH]; [constructor|]. constructor; [|exact IH].
  cbn [fst snd] in *. destruct d as [d|]; [|exfalso; tauto]. destruct D as (_ & _ & n & Sd & Ld & Vd). destruct Y as (m & Sy & Ly & Vy).
  assert (n = m) as ->.
  { destruct (Nat.lt_trichotomy n m) as [Z|[Z|Z]]; [|exact Z|]; exfalso; [apply Ly, Ld in Z|apply Ld, Ly in Z]; lia. }
  exists d, m. split; [reflexivity|]. split; [exact Sy|]. split; [exact Sd|]. intros k Hk. do 2 eexists. split; [apply Vy; exact Hk|]. split; [apply Vd; exact Hk|].
  rewrite <- ev_phase, Ph. apply Hf.
Qed.
Print Assumptions C75_approximation_converges.

(** *** C76.  A missing parameter is reported before anything is drawn. *)
Theorem C76_missing_parameter : forall w surf sid s inc ap pds kw v,
  scat_at (w_heap w) sid = Ok s -> In kw pds -> In v (syms (phase_function s)) -> ~ In v angle_names -> ~ In v (dkeys kw) ->
  polarplot surf sid inc ap pds w = (w, Err AssertionError).
Proof.
  intros w surf sid s inc ap pds kw v Hs Hk Hv Na Nv. unfold polarplot, bind at 1, gets. rewrite Hs.
  replace (forallb (fun kw => subset_b (polar_required s) (dkeys kw)) pds) with false; [reflexivity|]. symmetry.
  apply Bool.not_true_iff_false. rewrite forallb_forall. intros H. specialize (H kw Hk). apply subset_b_incl in H. apply Nv, H. unfold polar_required. apply filter_In.
  split; [exact Hv|]. apply Bool.negb_true_iff. now apply mem_not_In.
Qed.
Print Assumptions C76_missing_parameter.

(** ** The hypotheses are met: a surface and a volume function with a parameter, under both backends *)
Definition polar_scat (surf : bool) (n : nat) : scat := if surf then SHG (ESym "t") (Some n) a_srf else VHG (ESym "t") (Some n) a_vol.
Definition wPol (surf seng : bool) (n : nat) : world := fst (run (init seng true) (ONewScat (polar_scat surf n) :: nil)).
Lemma polar_facts surf n : (0 < n)%nat -> let s := polar_scat surf n in
  no_angles s /\ smooth fHem s /\ given_numbers kwHem fHem s /\ ok_scat fHem s /\ expandable fHem s /\ knows_ncoefs s /\ In "theta_ex" (syms (phase_function s)).
Proof.
  intros Hn. cbn zeta. assert (U : Rabs (Q2R 1) <= 1) by (unfold Q2R; simpl; rewrite Rabs_pos_eq; lra).
  assert (U' : Rabs (Q2R (-1)) <= 1) by (unfold Q2R; simpl; rewrite Rabs_left; lra).
  assert (T : Rabs (1 / 2) < 1) by (rewrite Rabs_pos_eq; lra).
  split; [|split; [|split; [|split; [|split; [|split]]]]].
  - destruct surf; intros x [<-|[]] X; repeat (destruct X as [X|X]; [discriminate X|]); exact X.
  - destruct surf; (split; [split; [|split]; first [exact U|exact U']|exact T]).
  - split; [repeat constructor; intros []|]. split; [|split].
    + intros k [<-|[]] X. repeat (destruct X as [X|X]; [discriminate X|]); exact X.
    + destruct surf; intros x [<-|[]]; now left.
    + intros k a [E|[]]. injection E as <- <-. split; reflexivity.
  - destruct surf; (split; [split; [exact I|exact T]|]; split; [now repeat split|]; split; [|split]; first [exact U|exact U']).
  - split; [|split].
    + destruct surf; repeat constructor; discriminate.
    + intros m Hm. destruct surf; cbn in Hm; injection Hm as <-; exact Hn.
    + split; [|destruct surf; constructor]. destruct surf; constructor; try constructor; simpl; unfold wd_a; simpl; auto.
  - destruct surf; eexists; reflexivity.
  - destruct surf; vm_compute; tauto.
Qed.
Lemma wPol_state surf seng n : good (wPol surf seng n) OGetBackend /\ scat_at (w_heap (wPol surf seng n)) 0 = Ok (polar_scat surf n).
Proof. split; [exists seng; eexists; split; [|reflexivity]; cbn; tauto|destruct seng; reflexivity]. Qed.
Example C74_nonvacuous surf seng : let s := polar_scat surf 3 in let w := wPol surf seng 3 in
  good w OGetBackend /\ scat_at (w_heap w) 0 = Ok s /\
  Forall2 (fun kw f => given_numbers kw f s /\ ok_scat f s /\ (true = true -> expandable f s)) (kwHem :: kwHem :: nil) (fHem :: fHem :: nil) /\
  makes_curves w surf true s.
Proof.
  cbn zeta. destruct (wPol_state surf seng 3) as [G Hs]. destruct (polar_facts surf 3 ltac:(lia)) as (_ & _ & K & O & E & _ & Ph). split; [exact G|]. split; [exact Hs|].
  split; [constructor; [auto|constructor; [auto|constructor]]|]. right. split; [exact Ph|]. intros _ e He. destruct surf; cbn in He; injection He as <-; simpl; auto 50.
Qed.
Example C75_nonvacuous surf N : let s := polar_scat surf 3 in let s' := polar_scat surf (3 + N) in let w := wPol surf true (3 + N) in
  no_angles s /\ Forall (fun f => smooth f s) (fHem :: nil) /\ finer N s s' /\ good w OGetBackend /\ scat_at (w_heap w) 0 = Ok s' /\
  Forall2 (fun kw f => given_numbers kw f s' /\ ok_scat f s' /\ expandable f s') (kwHem :: nil) (fHem :: nil) /\ knows_ncoefs s' /\ makes_curves w surf true s'.
Proof.
  cbn zeta. destruct (wPol_state surf true (3 + N)) as [G Hs]. destruct (polar_facts surf (3 + N) ltac:(lia)) as (_ & _ & K & O & E & Kn & Ph).
  destruct (polar_facts surf 3 ltac:(lia)) as (NA & Sm & _). split; [exact NA|]. split; [repeat constructor; exact Sm|]. split; [destruct surf; constructor; lia|].
  split; [exact G|]. split; [exact Hs|]. split; [constructor; [auto|constructor]|]. split; [exact Kn|]. left. reflexivity.
Qed.
(** C73: an isotropic surface under sympy; C76: the parameter t is missing from the second set *)
Example C73_nonvacuous : good (wIso false) OGetBackend /\ scat_at (w_heap (wIso false)) 0 = Ok (SIso a_one) /\ given_numbers nil (fun _ => 0) (SIso a_one) /\
  ok_scat (fun _ => 0) (SIso a_one) /\ h_be (w_heap (wIso false)) = Sympy /\ ~ In "theta_ex" (syms (phase_function (SIso a_one))).
Proof. destruct iso_facts as (_ & _ & F3 & _). split; [apply wIso_good|]. split; [reflexivity|]. split; [apply iso_given|]. split; [exact F3|]. split; [reflexivity|vm_compute; tauto]. Qed.
Example C76_nonvacuous surf seng : polarplot surf 0 (15 :: nil) true (kwHem :: nil :: nil) (wPol surf seng 3) = (wPol surf seng 3, Err AssertionError).
Proof.
  apply (C76_missing_parameter _ surf 0%nat (polar_scat surf 3) _ _ _ nil "t").
  - apply wPol_state.
  - simpl; auto.
  - destruct surf; vm_compute; tauto.
  - intros X. repeat (destruct X as [X|X]; [discriminate X|]); exact X.
  - intros [].
Qed.
