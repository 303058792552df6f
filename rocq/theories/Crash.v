(** Histories in which calls are interrupted: one call, seen from objects that differ only in which
    coefficients of the interaction term have been computed already. *)
From Coq Require Import FunctionalExtensionality.
From Verif Require Import Stable StateProps StateProps2 Memo PlotFacts Sessions Stale Lazy Properties14 Properties15 Properties37 Properties39 Threads Config Properties40.
From Coq Require Import Lia.
Open Scope string_scope.
Open Scope nat_scope.
Open Scope list_scope.

Lemma so_set h l r r' : same_obj (set_objs h l) r r' <-> same_obj h r r'. Proof. reflexivity. Qed.
Lemma lazy_trans h1 h2 h3 : lazy_eq h1 h2 -> lazy_eq h2 h3 -> lazy_eq h1 h3.
Proof.
  intros (l & -> & F) (l' & -> & F'). exists l'. split; [destruct h1; reflexivity|]. cbn [h_objs set_objs] in F'.
  assert (G : forall a b c, Forall2 (same_obj h1) a b -> Forall2 (same_obj (set_objs h1 l)) b c -> Forall2 (same_obj h1) a c).
  { induction a as [|x a IH]; intros b c H H'; inversion H; subst; inversion H'; subst; constructor; [|eapply IH; eassumption].
    eapply same_trans; [eassumption|]. apply (so_set h1 l). assumption. }
  exact (G _ _ _ F F').
Qed.
Lemma so_strip h r r' : strip r' = strip r -> fnev_next h r' = fnev_next h r -> same_obj h r r'.
Proof. intros E F. split; [exact E|]. split; [|exact F]. rewrite (strip_eq _ _ E). destruct r; reflexivity. Qed.
Lemma so_params h r r' : same_obj h r r' -> r_params r' = r_params r.
Proof. intros (E & _). rewrite (strip_eq _ _ E). reflexivity. Qed.
(** changes that do not concern the coefficients *)
Definition harmless (f : rt1 -> rt1) : Prop :=
  (forall r, f (strip r) = strip (f r)) /\ (forall h r, fnev_next h (f r) = fnev_next h r).
Lemma so_harmless h f r r' : harmless f -> same_obj h r r' -> same_obj h (f r) (f r').
Proof. intros [A B] (E & _ & F). apply so_strip; [rewrite <- !A, E; reflexivity|]. now rewrite !B. Qed.
Lemma hl_ang a x : harmless (fun r => with_ang r a x). Proof. split; intros; destruct r; reflexivity. Qed.
Lemma hl_def p d : harmless (fun r => with_def r p d). Proof. split; intros; destruct r; reflexivity. Qed.
Lemma strip_rst r r' m : strip r' = strip r -> rst r' m = rst r m.
Proof. intros E. rewrite (strip_eq _ _ E). destruct r; reflexivity. Qed.
Lemma lazy_put h h' o r r' : lazy_eq h h' -> same_obj h r r' -> lazy_eq (set_objs h (list_set (h_objs h) o r)) (set_objs h' (list_set (h_objs h') o r')).
Proof. intros (l & -> & F) S. exists (list_set l o r'). split; [destruct h; reflexivity|]. cbn [h_objs set_objs]. apply F2_set; [exact F|exact S]. Qed.

(** ** the calls of a session: on existing objects, parameter names already in use, numbers for fixed angles *)
Definition routine (h : heap) (q : op) : Prop :=
  exists o r, uses o q = true /\ obj h o = Ok r /\
  match q with
  | OCalc _ kw | OSurface _ kw | OVolume _ kw | OInteraction _ kw | OUpdate _ kw => incl (dkeys kw) (dkeys (r_params r))
  | OJacobian _ _ _ | OReadAngle _ _ | OReadParam _ _ | OParamDict _ => True
  | OSetGeometry _ _ | OSetDef _ _ _ => True
  | OSetMono _ a => a <> Some FBad
  | OSetBi _ a b c d => a <> Some FBad /\ b <> Some FBad /\ c <> Some FBad /\ d <> Some FBad
  | _ => False
  end.
Lemma routine_adm J h q : routine h q -> adm1 J h q.
Proof.
  intros (o & r & U & Hr & K). destruct q; cbn in K; try contradiction; try exact I; cbn in U; apply Nat.eqb_eq in U; subst; intros _ r0 H0; assert (r0 = r) by congruence; subst; exact K.
Qed.
Lemma routine_lazy h h' q : lazy_eq h h' -> routine h q -> routine h' q.
Proof.
  intros L (o & r & U & Hr & K). destruct (lazy_obj _ _ _ _ L Hr) as (r' & Hr' & S). exists o, r'. split; [exact U|]. split; [exact Hr'|]. now rewrite (so_params _ _ _ S).
Qed.

(** the same loop of set_geometry on the two objects *)
Lemma loop_lazy o kw : forall w w', lazy_eq (w_heap w) (w_heap w') ->
  snd (set_geometry_loop o kw w') = snd (set_geometry_loop o kw w) /\ lazy_eq (w_heap (fst (set_geometry_loop o kw w))) (w_heap (fst (set_geometry_loop o kw w'))).
Proof.
  induction kw as [|[a v] kw IH]; intros w w' L; [split; [reflexivity|exact L]|]. cbn [set_geometry_loop].
  destruct (obj (w_heap w) o) as [r|e] eqn:Hr.
  - destruct (lazy_obj _ _ _ _ L Hr) as (r' & Hr' & S). rewrite (bind_get o r _ _ Hr), (bind_get o r' _ _ Hr').
    assert (E : r_fixed r' = r_fixed r) by (destruct S as (E & _); rewrite (strip_eq _ _ E); reflexivity). rewrite E.
    destruct (existsb _ _); [split; [reflexivity|exact L]|]. destruct v as [x|]; [|split; [reflexivity|exact L]]. rewrite !bind_put. apply IH.
    apply (lazy_put (w_heap w) (w_heap w') o _ _ L). apply (so_harmless _ (fun r => with_ang r a x)); [apply hl_ang|exact S].
  - assert (He : obj (w_heap w') o = Err e).
    { destruct L as (l & E & F). rewrite E. unfold obj in *. cbn [h_objs set_objs]. destruct (nth_error l o) eqn:El; [|destruct (nth_error (h_objs (w_heap w)) o); [discriminate Hr|exact Hr]].
      destruct (F2_nth' _ _ _ _ _ F El) as (r0 & X & _). rewrite X in Hr. discriminate Hr. }
    unfold bind, get_obj, gets. rewrite Hr, He. split; [reflexivity|exact L].
Qed.
Lemma put_heap o r w : w_heap (fst (put_obj o r w)) = set_objs (w_heap w) (list_set (h_objs (w_heap w)) o r). Proof. reflexivity. Qed.
Lemma def_heap o p d w r : obj (w_heap w) o = Ok r -> snd (set_def o p d w) = Ok tt /\ w_heap (fst (set_def o p d w)) = w_heap (fst (put_obj o (with_def r p d) w)).
Proof.
  intros H1. unfold set_def. change ((clear_param_cache;;; (do r1 <- get_obj o;; put_obj o (with_def r1 p d))) w) with ((do r1 <- get_obj o;; put_obj o (with_def r1 p d)) (fst (clear_param_cache w))).
  rewrite (bind_get o r) by exact H1. split; reflexivity.
Qed.
Lemma as_out_eq {A} (f : A -> out) (m : M A) w w' : snd (m w') = snd (m w) -> snd (as_out f m w') = snd (as_out f m w).
Proof. unfold as_out. destruct (m w), (m w'). cbn. now intros ->. Qed.
Lemma mono_good o p0 w r : obj (w_heap w) o = Ok r -> p0 <> Some FBad -> snd (set_monostatic o p0 w) = Ok tt.
Proof.
  intros Hr Hp. unfold set_monostatic. rewrite (bind_get o r _ _ Hr), put_clear, clear_then, bind_put. fold (cleared_w w).
  rewrite <- cw_obj in Hr. rewrite (bind_get o (with_mode r true)) by (eapply put_get; eassumption). cbv zeta. rewrite bind_put.
  destruct p0 as [[q|]|]; [reflexivity|now contradict Hp|reflexivity].
Qed.
Lemma lazy_eval h h' q : HB h -> lazy_eq h h' -> routine h q -> eval h' q = eval h q /\ lazy_eq (evalh h q) (evalh h' q).
Proof.
  intros B L K. pose proof K as (o & r & U & Hr & K'). destruct (lazy_obj _ _ _ _ L Hr) as (r' & Hr' & S).
  destruct q; try contradiction; try (apply (eval_lazy h h' _ B L); exists o, r; split; [exact U|split; [exact Hr|exact K']]); cbn in U; apply Nat.eqb_eq in U; subst; unfold eval, evalh; cbn [step]; rewrite !fst_as_out.
  - assert (X : snd (set_geometry o kw (bare h')) = snd (set_geometry o kw (bare h)) /\ lazy_eq (w_heap (fst (set_geometry o kw (bare h)))) (w_heap (fst (set_geometry o kw (bare h'))))).
    { unfold set_geometry. destruct (rmap _ kw) as [akw|e]; [|split; [reflexivity|exact L]]. rewrite (bind_get o r _ (bare h)), (bind_get o r' _ (bare h')) by assumption.
      assert (E : r_mono r' = r_mono r) by (destruct S as (E & _); rewrite (strip_eq _ _ E); reflexivity). rewrite E.
      destruct (_ && _); [split; [reflexivity|exact L]|]. rewrite !clear_then. apply loop_lazy. exact L. }
    destruct X as [X Y]. split; [now apply as_out_eq|exact Y].
  - pose proof (mono_good o p0 (bare h) r Hr K') as A1. pose proof (mono_good o p0 (bare h') r' Hr' K') as A2. split; [apply as_out_eq; congruence|].
    rewrite (mono_target o p0 (bare h) r Hr A1), (mono_target o p0 (bare h') r' Hr' A2), !put_heap. apply (lazy_put h h' o _ _ L).
    destruct S as (E & _). unfold target_mono. rewrite (strip_rst _ _ true E). apply same_refl.
  - destruct (bi_target o t0 tex p0 pex (bare h) r Hr K') as [A1 A2]. destruct (bi_target o t0 tex p0 pex (bare h') r' Hr' K') as [B1 B2]. split; [apply as_out_eq; congruence|].
    rewrite A2, B2, !put_heap. apply (lazy_put h h' o _ _ L). destruct S as (E & _). unfold target_bi. rewrite (strip_rst _ _ false E). apply same_refl.
  - match goal with |- context [set_def o ?a ?b] => rename a into pn, b into pd end. destruct (def_heap o pn pd (bare h) r Hr) as [A1 A2]. destruct (def_heap o pn pd (bare h') r' Hr') as [B1 B2]. split; [apply as_out_eq; congruence|].
    rewrite A2, B2, !put_heap. apply (lazy_put h h' o _ _ L). apply (so_harmless _ (fun r => with_def r pn pd)); [apply hl_def|exact S].
Qed.

(** objects and parameter names stay *)
Lemma loop_rec o kw : forall w r, obj (w_heap w) o = Ok r -> exists r2, w_heap (fst (set_geometry_loop o kw w)) = w_heap (fst (put_obj o r2 w)) /\ r_params r2 = r_params r.
Proof.
  induction kw as [|[a v] kw IH]; intros w r Hr; cbn [set_geometry_loop].
  - exists r. split; [now rewrite put_self|reflexivity].
  - rewrite (bind_get o r _ _ Hr). assert (Z : exists r2, w_heap w = w_heap (fst (put_obj o r2 w)) /\ r_params r2 = r_params r) by (exists r; split; [now rewrite put_self|reflexivity]).
    destruct (existsb _ _); [exact Z|]. destruct v as [x|]; [|exact Z]. rewrite bind_put. destruct (IH _ _ (put_get o r (with_ang r a x) w Hr)) as (r2 & E & P). exists r2. rewrite E, put_put. split; [reflexivity|exact P].
Qed.
Lemma evolves h q o r : HB h -> routine h q -> uses o q = true -> obj h o = Ok r ->
  exists r2, evalh h q = set_objs h (list_set (h_objs h) o r2) /\ incl (dkeys (r_params r)) (dkeys (r_params r2)).
Proof.
  intros B K U Hr.
  assert (X : known h q -> exists r2, evalh h q = set_objs h (list_set (h_objs h) o r2) /\ incl (dkeys (r_params r)) (dkeys (r_params r2))).
  { intros K1. destruct (known_answer h q o r K1 U Hr) as [_ (r2 & E & S)]. exists r2. split; [exact E|]. rewrite (so_params _ _ _ S).
    destruct q; cbn [rec_after]; try apply incl_refl; intros x Hx; unfold upd_rec; cbn [r_params with_params]; apply In_dkeys_dupdate; exact Hx. }
  destruct K as (o1 & r1 & U1 & Hr1 & K).
  destruct q; try contradiction; try (apply X; exists o1, r1; split; [exact U1|split; [exact Hr1|exact K]]); cbn in U; apply Nat.eqb_eq in U; subst; unfold evalh; cbn [step]; rewrite !fst_as_out; clear X.
  - assert (Z : exists r2, h = set_objs h (list_set (h_objs h) o r2) /\ incl (dkeys (r_params r)) (dkeys (r_params r2))).
    { exists r. pose proof (proj1 (obj_nth h o r) Hr) as Hn. rewrite (list_set_self _ _ _ Hn), set_objs_same. split; [reflexivity|apply incl_refl]. }
    unfold set_geometry. destruct (rmap _ kw) as [akw|e]; [|exact Z]. rewrite (bind_get o r _ (bare h)) by assumption. destruct (_ && _); [exact Z|]. rewrite !clear_then.
    destruct (loop_rec o akw (fst (clear_geom_cache (bare h))) r Hr) as (r2 & E & P). exists r2. rewrite E. split; [reflexivity|]. rewrite P. apply incl_refl.
  - cbn in U1. apply Nat.eqb_eq in U1. subst. pose proof (mono_good o1 p0 (bare h) r Hr K) as A1. rewrite (mono_target o1 p0 (bare h) r Hr A1). exists (target_mono p0 r). split; [reflexivity|].
    unfold target_mono, fixed_to. destruct p0 as [[x|]|]; apply incl_refl.
  - cbn in U1. apply Nat.eqb_eq in U1. subst. destruct (bi_target o1 t0 tex p0 pex (bare h) r Hr K) as [_ E]. rewrite E. exists (target_bi t0 tex p0 pex r). split; [reflexivity|].
    assert (G : forall a v r, r_params (fixed_to a v r) = r_params r) by (intros a [[x|]|] r2; reflexivity).
    unfold target_bi. change (r_params (with_geom ?x ?g)) with (r_params x). rewrite !G. apply incl_refl.
  - match goal with |- context [set_def o ?a ?b] => rename a into pn, b into pd end. destruct (def_heap o pn pd (bare h) r Hr) as [_ E]. rewrite E. exists (with_def r pn pd). split; [reflexivity|apply incl_refl].
Qed.
Lemma routine_stays h q0 q : HB h -> routine h q0 -> routine h q -> routine (evalh h q0) q.
Proof.
  intros B K0 K. pose proof K0 as (o & r & U & Hr & _). destruct (evolves h q0 o r B K0 U Hr) as (r2 & E & P). rewrite E. destruct K as (o1 & r1 & U1 & Hr1 & K).
  pose proof (proj1 (obj_nth h o r) Hr) as Hn. pose proof (proj1 (obj_nth h o1 r1) Hr1) as Hn1.
  destruct (Nat.eq_dec o o1) as [<-|Ho].
  - assert (r1 = r) by congruence. subst r1. exists o, r2. split; [exact U1|]. split; [apply obj_nth; cbn; eapply nth_error_list_set_same; exact Hn|].
    destruct q; auto; intros x Hx; apply P, K, Hx.
  - exists o1, r1. split; [exact U1|]. split; [apply obj_nth; cbn; rewrite nth_list_set_ne; auto|exact K].
Qed.
