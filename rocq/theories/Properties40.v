(** C103: a call that configures an object (set_geometry, set_monostatic, set_bistatic, the setters of tau,
    omega, NormBRDF and bsf) and is interrupted between any two steps. *)
From Coq Require Import FunctionalExtensionality.
From Verif Require Import Stable StateProps StateProps2 Memo PlotFacts Sessions Stale Lazy Properties14 Properties15 Properties37 Properties39 Threads Config.
From Coq Require Import Reals Lra Lia.
Open Scope string_scope.
Open Scope nat_scope.
Open Scope list_scope.

(** ** Two worlds with the same objects *)
Lemma adm_same c : forall J w1 w2 u, Sim J w1 u -> Sim J w2 u -> HB (w_heap w1) -> adm J w1 c -> adm J w2 c.
Proof.
  induction c as [|p c IH]; intros J w1 w2 u H1 H2 Hb Ha; [exact I|]. destruct Ha as [A1 A2].
  assert (E : w_heap w2 = w_heap w1) by (destruct H1 as (_ & _ & E1 & _), H2 as (_ & _ & E2 & _); congruence).
  assert (A1' : adm1 J (w_heap w2) p) by (rewrite E; exact A1). assert (Hb' : HB (w_heap w2)) by (rewrite E; exact Hb).
  split; [exact A1'|]. destruct (step_sim J w1 u p H1 Hb A1) as [_ S1]. destruct (step_sim J w2 u p H2 Hb' A1') as [_ S2].
  exact (IH _ _ _ _ S1 S2 (step_HB w1 p Hb) A2).
Qed.
Lemma two_runs c J w1 u1 w2 u2 : Sim J w1 u1 -> Sim J w2 u2 -> w_heap w1 = w_heap w2 -> HB (w_heap w1) -> adm J w1 c -> snd (run w2 c) = snd (run w1 c).
Proof.
  intros H1 H2 E Hb Ha. apply Sim_bare in H1. apply Sim_bare in H2. rewrite <- E in H2. assert (Hb' : HB (w_heap w2)) by (rewrite <- E; exact Hb).
  pose proof (adm_same c J w1 w2 _ H1 H2 Hb Ha) as Ha2. destruct (run_bare c J w1 _ Ha H1 Hb) as [X _]. destruct (run_bare c J w2 _ Ha2 H2 Hb') as [Y _]. congruence.
Qed.

(** ** Stopped programs *)
Lemma stopped_done {A} n (r : res A) w : stopped n (Done r) w = w. Proof. destruct n; reflexivity. Qed.
Lemma stopped_out {A} (f : A -> out) (p : prog A) : forall n w, stopped n (pout f p) w = stopped n p w.
Proof.
  induction p as [[a|e]|C m k IH]; intros n w; [destruct n; reflexivity|destruct n; reflexivity|]. destruct n as [|n]; [reflexivity|]. exact (IH (snd (m w)) n (fst (m w))).
Qed.
Lemma stopped_one {A B} n (m : M A) (k : A -> prog B) w :
  stopped (S n) (pbind (atom m) k) w = match snd (m w) with Ok a => stopped n (k a) (fst (m w)) | Err _ => fst (m w) end.
Proof. cbn. destruct (snd (m w)); [reflexivity|apply stopped_done]. Qed.

(** ** set_geometry: an interrupted call has assigned some of the angles, in the order of the call *)
Lemma Sim_clear1 J w u n : Sim J w u -> Sim J (fst (cache_clear n w)) u.
Proof.
  intros (A & B & C & D & E). unfold cache_clear, set_cache. cbn [fst]. repeat split; auto.
  - intros m k v Hin. apply (D m). cbn [w_caches] in Hin. destruct (cname_eqb _ _); [destruct Hin|exact Hin].
  - intros m k v Hm Hin. apply (E m k v Hm). cbn [w_caches] in Hin. destruct (cname_eqb _ _); [destruct Hin|exact Hin].
Qed.
Lemma stopped_clear {A} J (k : prog A) w u n : Sim J w u ->
  (Sim J (stopped n (c_clear_geom k) w) u /\ w_heap (stopped n (c_clear_geom k) w) = w_heap w) \/
  exists n', stopped n (c_clear_geom k) w = stopped n' k (cleared_w w).
Proof.
  intros HS. destruct n as [|[|[|[|n]]]].
  - left. split; [exact HS|reflexivity].
  - left. split; [|reflexivity]. now apply (Sim_clear1 J w u CMu0).
  - left. split; [|reflexivity]. apply (Sim_clear1 J _ u CMu0x). now apply (Sim_clear1 J w u CMu0).
  - left. split; [|reflexivity]. apply (Sim_clear1 J _ u CMuEx). apply (Sim_clear1 J _ u CMu0x). now apply (Sim_clear1 J w u CMu0).
  - right. exists n. reflexivity.
Qed.
Lemma stopped_loop J o kw : forall n w u, Sim J w u -> Empty is_G w ->
  let ws := stopped n (c_loop o kw) w in
  exists k u', k <= length kw /\ Sim J ws u' /\ w_heap ws = w_heap (fst (set_geometry_loop o (firstn k kw) w)).
Proof.
  induction kw as [|[a v] kw IH]; intros n w u HS HE ws.
  { exists 0, u. subst ws. cbn [c_loop]. unfold pret. rewrite stopped_done. split; [auto|]. split; [exact HS|reflexivity]. }
  assert (Z : ws = w -> exists k u', k <= length ((a, v) :: kw) /\ Sim J ws u' /\ w_heap ws = w_heap (fst (set_geometry_loop o (firstn k ((a, v) :: kw)) w))).
  { intros ->. exists 0, u. split; [cbn; lia|]. split; [exact HS|reflexivity]. }
  subst ws. cbn [c_loop] in *. destruct n as [|n]; [apply Z; reflexivity|]. rewrite stopped_one in *.
  unfold get_obj, gets in *. cbn [fst snd] in *. destruct (obj (w_heap w) o) as [r|e] eqn:Hr; [|now apply Z].
  destruct (existsb (angle_eqb a) (r_fixed r)) eqn:Ex; [apply Z, stopped_done|]. destruct v as [x|]; [|apply Z, stopped_done].
  destruct n as [|n]; [apply Z; reflexivity|]. rewrite stopped_one in *. rewrite (upd_put _ _ _ _ Hr) in *. cbn [fst snd] in *. clear Z.
  destruct (SimG_put J w u o r (with_ang r a x) HS HE Hr) as [S1 E1]; [intros p; reflexivity|agr|].
  destruct (IH n _ _ S1 E1) as (k & u' & K & S2 & H2). exists (S k), u'. split; [cbn; lia|]. split; [exact S2|]. rewrite H2.
  cbn [firstn set_geometry_loop]. rewrite (bind_get o r _ _ Hr), Ex, bind_put. reflexivity.
Qed.
Lemma rmap_firstn {A B} (f : A -> res B) l : forall l' k, rmap f l = Ok l' -> rmap f (firstn k l) = Ok (firstn k l').
Proof.
  induction l as [|x l IH]; intros l' k H; cbn in H.
  { injection H as <-. destruct k; reflexivity. }
  destruct (f x) as [y|e] eqn:E; cbn in H; [|discriminate H]. destruct (rmap f l) as [ys|e] eqn:E2; cbn in H; [|discriminate H]. injection H as <-.
  destruct k as [|k]; [reflexivity|]. cbn. rewrite E. cbn. rewrite (IH ys k eq_refl). reflexivity.
Qed.
Lemma existsb_firstn {A} (f : A -> bool) l : forall k, existsb f l = false -> existsb f (firstn k l) = false.
Proof. induction l as [|x l IH]; intros [|k] H; auto. cbn in *. apply orb_false_iff in H. destruct H as [-> H]. now rewrite IH. Qed.
Lemma geometry_nothing o w : w_heap (fst (set_geometry o [] w)) = w_heap w.
Proof. unfold set_geometry. cbn [rmap]. unfold bind, get_obj, gets. destruct (obj (w_heap w) o); reflexivity. Qed.
Lemma stopped_geometry J o kw n w u : Sim J w u ->
  let ws := stopped n (c_geometry o kw) w in
  exists k u', k <= length kw /\ Sim J ws u' /\ w_heap ws = w_heap (fst (set_geometry o (firstn k kw) w)).
Proof.
  intros HS ws.
  assert (Z : forall u', Sim J ws u' -> w_heap ws = w_heap w -> exists k u', k <= length kw /\ Sim J ws u' /\ w_heap ws = w_heap (fst (set_geometry o (firstn k kw) w))).
  { intros u' X Y. exists 0, u'. split; [lia|]. split; [exact X|]. cbn [firstn]. now rewrite geometry_nothing. }
  subst ws. unfold c_geometry in *. destruct (rmap _ kw) as [akw|e] eqn:Ek; [|apply (Z u); unfold pfail; rewrite stopped_done; auto].
  destruct n as [|n]; [apply (Z u); [exact HS|reflexivity]|]. rewrite stopped_one in *. unfold get_obj, gets in *. cbn [fst snd] in *.
  destruct (obj (w_heap w) o) as [r|e] eqn:Hr; [|now apply (Z u)].
  destruct (existsb _ akw && r_mono r) eqn:Ex; [apply (Z u); unfold pfail; rewrite stopped_done; auto|].
  destruct (stopped_clear J (c_loop o akw) w u n HS) as [[X Y]|[n' X]]; [now apply (Z u)|]. rewrite X. clear Z X.
  destruct (clear_geom_Sim J w u HS) as (S1 & E1 & _). destruct (stopped_loop J o akw n' (cleared_w w) _ S1 E1) as (k & u' & K & S2 & H2).
  assert (L : length akw = length kw).
  { clear - Ek. revert akw Ek. induction kw as [|x kw IH]; intros akw H; cbn in H; [now injection H as <-|].
    match type of H with rbind ?t _ = _ => destruct t; cbn in H; [|discriminate H] end. destruct (rmap _ kw) as [ys|]; cbn in H; [|discriminate H]. injection H as <-. cbn. f_equal. now apply IH. }
  exists k, u'. split; [lia|]. split; [exact S2|]. rewrite H2. unfold set_geometry. rewrite (rmap_firstn _ _ _ k Ek), (bind_get o r _ _ Hr).
  assert (Ex' : existsb (fun av : angle * option pyval => angle_eqb TEx (fst av) || angle_eqb PEx (fst av)) (firstn k akw) && r_mono r = false).
  { apply andb_false_iff in Ex. destruct Ex as [Ex|Ex]; [|rewrite Ex; apply andb_false_r]. now rewrite existsb_firstn. }
  rewrite Ex', clear_then. reflexivity.
Qed.

(** ** the setters of tau, omega, NormBRDF and bsf *)
Lemma stopped_def J o p d n w u : Sim J w u ->
  let ws := stopped n (c_def o p d) w in
  exists u', Sim J ws u' /\ (w_heap ws = w_heap w \/ w_heap ws = w_heap (fst (set_def o p d w))).
Proof.
  intros HS ws. subst ws. unfold c_def. destruct n as [|[|[|n]]].
  - exists u. split; [exact HS|]. now left.
  - exists u. split; [now apply (Sim_clear1 J w u CPFuncs)|]. now left.
  - exists u. split; [apply (Sim_clear1 J _ u CPSymbs); now apply (Sim_clear1 J w u CPFuncs)|]. now left.
  - destruct (obj (w_heap w) o) as [r|e] eqn:Hr.
    + destruct (clear_param_Sim J w u HS) as [S1 E1]. exists (fst (put_obj o (with_def r p d) (fst (clear_param_cache u)))).
      assert (E : stopped (S (S (S n))) (c_def o p d) w = fst (put_obj o (with_def r p d) (fst (clear_param_cache w)))).
      { unfold c_def. rewrite !stopped_one. cbn [fst snd cache_clear]. unfold atom. cbn [stopped]. rewrite stopped_done.
        rewrite (upd_put o _ _ r) by exact Hr. reflexivity. }
      unfold c_def in E. rewrite E. split; [eapply SimP_put; [exact S1|exact E1|exact Hr|agr|agr]|]. right.
      unfold set_def. change ((clear_param_cache;;; (do r1 <- get_obj o;; put_obj o (with_def r1 p d))) w) with ((do r1 <- get_obj o;; put_obj o (with_def r1 p d)) (fst (clear_param_cache w))).
      rewrite (bind_get o r); [reflexivity|exact Hr].
    + assert (E : stopped (S (S (S n))) (c_def o p d) w = fst (clear_param_cache w)).
      { unfold c_def. rewrite !stopped_one. cbn [fst snd cache_clear]. unfold atom. cbn [stopped]. rewrite stopped_done.
        rewrite (upd_err o _ _ e) by exact Hr. reflexivity. }
      unfold c_def in E. rewrite E. destruct (clear_param_Sim J w u HS) as [S1 E1]. exists (fst (clear_param_cache u)). split; [exact S1|now left].
Qed.

(** ** set_monostatic and set_bistatic: what a complete call makes of the object *)
Definition fixed_to (a : angle) (v : option fixarg) (r : rt1) : rt1 :=
  match v with Some (FNum q) => with_fixed (with_ang r a (PNum (Fin (Q2R q)))) (a :: r_fixed r) | _ => r end.
Definition sym_or (a : angle) (v : option fixarg) : expr := match v with Some (FNum q) => ENum q | _ => ang_sym a end.
Definition target_mono (p0 : option fixarg) (r : rt1) : rt1 :=
  with_geom (fixed_to P0 p0 (rst r true)) (mk_angs (ang_sym T0) (ang_sym T0) (sym_or P0 p0) (sym_or P0 p0)).
Definition target_bi (a b c d : option fixarg) (r : rt1) : rt1 :=
  with_geom (fixed_to PEx d (fixed_to P0 c (fixed_to TEx b (fixed_to T0 a (rst r false)))))
    (mk_angs (sym_or T0 a) (sym_or TEx b) (sym_or P0 c) (sym_or PEx d)).
Lemma mono_target o p0 w r : obj (w_heap w) o = Ok r -> snd (set_monostatic o p0 w) = Ok tt ->
  w_heap (fst (set_monostatic o p0 w)) = w_heap (fst (put_obj o (target_mono p0 r) w)).
Proof.
  intros Hr. unfold set_monostatic. rewrite (bind_get o r _ _ Hr), put_clear, clear_then, bind_put. fold (cleared_w w). intros Hs.
  rewrite <- cw_obj in Hr. rewrite (bind_get o (with_mode r true)) in * by (eapply put_get; exact Hr). cbv zeta in *. rewrite bind_put, put_put in *.
  destruct p0 as [[q|]|]; [|discriminate Hs|]; rewrite put_put; reflexivity.
Qed.
Lemma mono_ok o p0 w w' r r' : obj (w_heap w) o = Ok r -> obj (w_heap w') o = Ok r' -> snd (set_monostatic o p0 w) = Ok tt -> snd (set_monostatic o p0 w') = Ok tt.
Proof.
  intros Hr Hr'. unfold set_monostatic. rewrite (bind_get o r _ _ Hr), (bind_get o r' _ _ Hr'), !put_clear, !clear_then, !bind_put. fold (cleared_w w) (cleared_w w').
  rewrite <- cw_obj in Hr, Hr'. rewrite (bind_get o (with_mode r true)), (bind_get o (with_mode r' true)) by (eapply put_get; eassumption). cbv zeta. rewrite !bind_put.
  destruct p0 as [[q|]|]; intros Hs; [reflexivity|discriminate Hs|reflexivity].
Qed.
Lemma bistep_run {B} o a v (k : expr -> M B) w r r0 : obj (w_heap w) o = Ok r0 -> v <> Some FBad ->
  bind (bistatic_step o a v) k (fst (put_obj o r w)) = k (sym_or a v) (fst (put_obj o (fixed_to a v r) w)).
Proof.
  intros Hr Hv. unfold bistatic_step, fixed_to, sym_or. destruct v as [[q|]|]; [|now contradict Hv|reflexivity].
  unfold bind at 1. rewrite (bind_get o r) by (eapply put_get; exact Hr). cbv zeta. rewrite bind_put, put_put. reflexivity.
Qed.
Lemma bistep_bad {B} o a (k : expr -> M B) w : snd (bind (bistatic_step o a (Some FBad)) k w) = Err AssertionError. Proof. reflexivity. Qed.
Lemma bi_run o a b c d w r : obj (w_heap w) o = Ok r -> snd (set_bistatic o a b c d w) = Ok tt ->
  a <> Some FBad /\ b <> Some FBad /\ c <> Some FBad /\ d <> Some FBad.
Proof.
  intros Hr. unfold set_bistatic. rewrite (bind_get o r _ _ Hr), put_clear, clear_then, bind_put. fold (cleared_w w).
  rewrite <- cw_obj in Hr. rewrite (bind_get o (with_mode r false)) by (eapply put_get; exact Hr). rewrite bind_put, put_put.
  assert (D : forall v, v = Some FBad \/ v <> Some FBad) by (intros [[]|]; [right; discriminate|now left|right; discriminate]).
  destruct (D a) as [->|Ha]; [rewrite bistep_bad; discriminate|]. rewrite (bistep_run o _ a _ _ _ r Hr Ha).
  destruct (D b) as [->|Hb]; [rewrite bistep_bad; discriminate|]. rewrite (bistep_run o _ b _ _ _ r Hr Hb).
  destruct (D c) as [->|Hc]; [rewrite bistep_bad; discriminate|]. rewrite (bistep_run o _ c _ _ _ r Hr Hc).
  destruct (D d) as [->|Hd]; [rewrite bistep_bad; discriminate|]. auto.
Qed.
Lemma bi_target o a b c d w r : obj (w_heap w) o = Ok r -> a <> Some FBad /\ b <> Some FBad /\ c <> Some FBad /\ d <> Some FBad ->
  snd (set_bistatic o a b c d w) = Ok tt /\ w_heap (fst (set_bistatic o a b c d w)) = w_heap (fst (put_obj o (target_bi a b c d r) w)).
Proof.
  intros Hr (Ha & Hb & Hc & Hd). unfold set_bistatic. rewrite (bind_get o r _ _ Hr), put_clear, clear_then, bind_put. fold (cleared_w w).
  rewrite <- cw_obj in Hr. rewrite (bind_get o (with_mode r false)) by (eapply put_get; exact Hr). rewrite bind_put, put_put. fold (rst r false).
  rewrite (bistep_run o _ a _ _ _ r Hr Ha), (bistep_run o _ b _ _ _ r Hr Hb), (bistep_run o _ c _ _ _ r Hr Hc), (bistep_run o _ d _ _ _ r Hr Hd).
  erewrite bind_get by (eapply put_get; exact Hr). rewrite put_put. split; reflexivity.
Qed.

(** ** Along the call *)
Section Along.
  Context (I : world -> Prop).
  Fixpoint along {A} (w : world) (p : prog A) : Prop :=
    I w /\ match p with Done _ => True | @Act _ _ m k => along (fst (m w)) (k (snd (m w))) end.
  Lemma along_stopped {A} (p : prog A) : forall n w, along w p -> I (stopped n p w).
  Proof. induction p as [r|C m k IH]; intros [|n] w [H1 H2]; cbn [stopped]; auto. Qed.
  Definition inv {A} (p : prog A) : Prop := forall w, I w -> along w p.
  Lemma inv_done {A} (r : res A) : inv (Done r). Proof. intros w H. split; [exact H|exact Logic.I]. Qed.
  Lemma inv_bind {A B} (p : prog A) (k : A -> prog B) : inv p -> (forall a, inv (k a)) -> inv (pbind p k).
  Proof.
    intros Hp Hk u Hu. specialize (Hp u Hu). clear Hu. revert u Hp. induction p as [[a|e]|C m f IH]; intros u [H1 H2]; cbn in *; [now apply Hk|split; auto|]. split; auto.
  Qed.
  Lemma inv_atom {A} (m : M A) : (forall w, I w -> I (fst (m w))) -> inv (atom m).
  Proof. intros Hm w H. split; [exact H|]. cbn. split; [now apply Hm|exact Logic.I]. Qed.
End Along.
Section Geom.
  Context (J : list nat) (o : nat) (w0 : world) (r0 : rt1) (T : rt1 -> rt1).
  Hypothesis Hr0 : obj (w_heap w0) o = Ok r0.
  Definition mid (w : world) : Prop :=
    SimN J w (bare (w_heap w)) /\ exists r', w_heap w = w_heap (fst (put_obj o r' w0)) /\ T r' = T r0.
  Lemma mid_obj w r' : w_heap w = w_heap (fst (put_obj o r' w0)) -> obj (w_heap w) o = Ok r'.
  Proof. intros ->. eapply put_get. exact Hr0. Qed.
  Lemma mid_clear n w : mid w -> mid (fst (cache_clear n w)).
  Proof.
    intros [(A & B & C & D & E) H]. split; [|exact H]. unfold cache_clear, set_cache. cbn [fst]. repeat split; auto.
    - intros m k v Hm Hin. apply (D m _ _ Hm). cbn [w_caches] in Hin. destruct (cname_eqb _ _); [destruct Hin|exact Hin].
    - intros m k v Hm Hin. apply (E m k v Hm). cbn [w_caches] in Hin. destruct (cname_eqb _ _); [destruct Hin|exact Hin].
  Qed.
  Lemma mid_upd f w : (forall r, agreeP r (f r) /\ agreeD r (f r) /\ T (f r) = T r) -> mid w -> mid (fst (upd o f w)).
  Proof.
    intros Hf [S (r' & E & F)]. pose proof (mid_obj w r' E) as Hr. rewrite (upd_put o f w r' Hr). cbn [fst]. destruct (Hf r') as (F1 & F2 & F3). split.
    - destruct (clear_SimN J w _ S) as [S1 E1]. destruct (SimG_put J _ _ o r' (f r') S1 E1 Hr F1 F2) as [(A & B & C & D & G) _].
      split; [apply S|]. split; [reflexivity|]. split; [reflexivity|]. split.
      + intros n k v Hn Hin. apply (D n k v). destruct n; try discriminate Hn; exact Hin.
      + intros n k v Hn Hin. apply (G n k v Hn). destruct n; try discriminate Hn; exact Hin.
    - exists (f r'). split; [|congruence]. cbn [put_obj fst w_heap set_heap] in *. rewrite E. unfold set_objs. cbn [h_be h_seng h_arrs h_scats h_objs]. rewrite list_set_twice. reflexivity.
  Qed.
End Geom.

(** changes that a complete call overwrites *)
Lemma T_twice r a x m : with_ang (rst (with_ang r a x) m) a x = with_ang (rst r m) a x.
Proof. destruct r as [f0 f1 f2 f3 f4 f5 f6 f7 f8 f9 f10 f11 f12 f13 f14 f15 f16]. cbv beta iota delta [rst with_fixed with_ang with_fnev with_fn with_mode r_V r_SRF r_intQ r_sig0 r_dB r_fn_input r_fnevals_input r_I0 r_def r_params r_fixed r_mono r_ang r_geom r_fn r_fnev r_plots]. f_equal. extensionality z. now destruct (angle_eqb a z). Qed.
Lemma T_ang_mono q r : target_mono (Some (FNum q)) (with_ang r P0 (PNum (Fin (Q2R q)))) = target_mono (Some (FNum q)) r.
Proof.
  unfold target_mono, fixed_to, sym_or. generalize (PNum (Fin (Q2R q))). intros x. f_equal. change (r_fixed (rst (with_ang r P0 x) true)) with (r_fixed (rst r true)). f_equal.
  apply T_twice.
Qed.
Lemma T_other x p y v r1 r2 : with_ang r1 x p = with_ang r2 x p -> with_ang (fixed_to y v r1) x p = with_ang (fixed_to y v r2) x p.
Proof.
  destruct v as [[q|]|]; cbn [fixed_to]; auto. generalize (PNum (Fin (Q2R q))). intros p'. destruct r1 as [f0 f1 f2 f3 f4 f5 f6 f7 f8 f9 f10 f11 f12 f13 f14 f15 f16], r2 as [g0 g1 g2 g3 g4 g5 g6 g7 g8 g9 g10 g11 g12 g13 g14 g15 g16]. cbv beta iota delta [with_fixed with_ang r_V r_SRF r_intQ r_sig0 r_dB r_fn_input r_fnevals_input r_I0 r_def r_params r_fixed r_mono r_ang r_geom r_fn r_fnev r_plots]. intros E. injection E. intros. subst. f_equal.
  extensionality z. match goal with X : (fun _ => _) = (fun _ => _) |- _ => pose proof (f_equal (fun g => g z) X) as Y end. cbn in Y. destruct (angle_eqb x z); [reflexivity|]. now rewrite Y.
Qed.
Lemma T_fixed x q r1 r2 : with_ang r1 x (PNum (Fin (Q2R q))) = with_ang r2 x (PNum (Fin (Q2R q))) -> fixed_to x (Some (FNum q)) r1 = fixed_to x (Some (FNum q)) r2.
Proof. cbn [fixed_to]. generalize (PNum (Fin (Q2R q))). intros p E. rewrite E. f_equal. f_equal. change (r_fixed (with_ang r1 x p) = r_fixed (with_ang r2 x p)). now rewrite E. Qed.
Lemma T_ang_bi a b c d x q r : (x, Some (FNum q)) = (T0, a) \/ (x, Some (FNum q)) = (TEx, b) \/ (x, Some (FNum q)) = (P0, c) \/ (x, Some (FNum q)) = (PEx, d) ->
  target_bi a b c d (with_ang r x (PNum (Fin (Q2R q)))) = target_bi a b c d r.
Proof.
  intros H. unfold target_bi.
  assert (Z : with_ang (rst (with_ang r x (PNum (Fin (Q2R q)))) false) x (PNum (Fin (Q2R q))) = with_ang (rst r false) x (PNum (Fin (Q2R q)))) by apply T_twice.
  f_equal. destruct H as [H|[H|[H|H]]]; injection H as -> E; subst.
  - do 3 f_equal. now apply T_fixed.
  - do 2 f_equal. now apply T_fixed, T_other.
  - do 1 f_equal. now apply T_fixed, T_other, T_other.
  - now apply T_fixed, T_other, T_other, T_other.
Qed.
Lemma R_mode r m m' : rst (with_mode r m') m = rst r m. Proof. destruct r; reflexivity. Qed.
Lemma R_fixed r m l : rst (with_fixed r l) m = rst r m. Proof. destruct r; reflexivity. Qed.
Lemma R_fn r m l : rst (with_fn r l) m = rst r m. Proof. destruct r; reflexivity. Qed.
Lemma R_fnev r m l : rst (with_fnev r l) m = rst r m. Proof. destruct r; reflexivity. Qed.
Lemma R_geom r m g : rst (with_geom r g) m = with_geom (rst r m) g. Proof. destruct r; reflexivity. Qed.
Lemma F_geom a v r g : fixed_to a v (with_geom r g) = with_geom (fixed_to a v r) g. Proof. destruct v as [[q|]|]; destruct r; reflexivity. Qed.
Lemma G_geom r g g' : with_geom (with_geom r g) g' = with_geom r g'. Proof. destruct r; reflexivity. Qed.
Ltac tgt := intros r; split; [intros p; reflexivity|split; [agr|]]; unfold target_mono, target_bi; rewrite ?R_mode, ?R_fixed, ?R_fn, ?R_fnev, ?R_geom, ?F_geom, ?G_geom; try reflexivity.
Section Calls.
  Context (J : list nat) (o : nat) (w0 : world) (r0 : rt1).
  Hypothesis Hr0 : obj (w_heap w0) o = Ok r0.
  Lemma inv_clear {A} T (k : prog A) : inv (mid J o w0 r0 T) k -> inv (mid J o w0 r0 T) (c_clear_geom k).
  Proof. intros Hk. unfold c_clear_geom. repeat (apply inv_bind; [apply inv_atom; intros w; apply mid_clear|intros _]). exact Hk. Qed.
  Lemma inv_upd T f : (forall r, agreeP r (f r) /\ agreeD r (f r) /\ T (f r) = T r) -> inv (mid J o w0 r0 T) (atom (upd o f)).
  Proof. intros Hf. apply inv_atom. intros w. now apply mid_upd. Qed.
  Lemma inv_mono p0 : inv (mid J o w0 r0 (target_mono p0)) (c_monostatic o p0).
  Proof.
    unfold c_monostatic. apply inv_bind; [apply inv_upd; tgt|intros _]. apply inv_clear. do 3 (apply inv_bind; [apply inv_upd; tgt|intros _]).
    destruct p0 as [[q|]|]; [|apply inv_done|apply inv_upd; tgt].
    apply inv_bind; [apply inv_upd; tgt|intros _]. 1: apply (T_ang_mono q r). apply inv_bind; [apply inv_upd; tgt|intros _]. apply inv_upd; tgt.
  Qed.
  Lemma inv_bistep a b c d x v : (x, v) = (T0, a) \/ (x, v) = (TEx, b) \/ (x, v) = (P0, c) \/ (x, v) = (PEx, d) -> inv (mid J o w0 r0 (target_bi a b c d)) (c_bistep o x v).
  Proof.
    intros H. unfold c_bistep. destruct v as [[q|]|]; [|apply inv_done|apply inv_done].
    apply inv_bind; [apply inv_upd; tgt|intros _]. 1: apply (T_ang_bi a b c d x q r H). apply inv_bind; [apply inv_upd; tgt|intros _]. apply inv_done.
  Qed.
  Lemma inv_bi a b c d : inv (mid J o w0 r0 (target_bi a b c d)) (c_bistatic o a b c d).
  Proof.
    unfold c_bistatic. apply inv_bind; [apply inv_upd; tgt|intros _]. apply inv_clear. do 3 (apply inv_bind; [apply inv_upd; tgt|intros _]).
    do 4 (apply inv_bind; [apply inv_bistep; tauto|intros ?e]). apply inv_upd; tgt.
  Qed.
End Calls.

(** ** Repeating set_geometry *)
Definition ang_all (kw : list (angle * option pyval)) (r : rt1) : rt1 :=
  fold_left (fun r av => match snd av with Some x => with_ang r (fst av) x | None => r end) kw r.
Lemma ang_over r a x y : with_ang (with_ang r a x) a y = with_ang r a y.
Proof. destruct r. unfold with_ang. cbn. f_equal. extensionality z. now destruct (angle_eqb a z). Qed.
Lemma ang_comm r a b x y : a <> b -> with_ang (with_ang r a x) b y = with_ang (with_ang r b y) a x.
Proof. intros H. destruct r. unfold with_ang. cbn. f_equal. extensionality z. destruct a, b, z; try reflexivity; now contradict H. Qed.
Lemma angle_dec (a b : angle) : {a = b} + {a <> b}. Proof. decide equality. Qed.
Lemma absorb kw : forall r a x y, In (a, Some y) kw -> ang_all kw (with_ang r a x) = ang_all kw r.
Proof.
  induction kw as [|[b [z|]] kw IH]; intros r a x y H; [destruct H| |]; cbn [ang_all fold_left snd fst].
  - destruct (angle_dec a b) as [<-|Hn]; [now rewrite ang_over|]. rewrite (ang_comm _ _ _ _ _ Hn). apply (IH _ a x y). destruct H as [H|H]; [congruence|exact H].
  - apply (IH _ a x y). destruct H as [H|H]; [congruence|exact H].
Qed.
Lemma absorb_all kw pre : (forall av, In av pre -> In av kw) -> forall r, ang_all kw (ang_all pre r) = ang_all kw r.
Proof.
  induction pre as [|[b [z|]] pre IH]; intros H r; [reflexivity| |]; cbn [ang_all fold_left snd fst].
  - fold (ang_all pre (with_ang r b z)). rewrite IH by (intros; apply H; now right). apply (absorb kw r b z z). apply H. now left.
  - apply IH. intros; apply H; now right.
Qed.
Definition settable (r : rt1) (kw : list (angle * option pyval)) : Prop := forall a v, In (a, v) kw -> existsb (angle_eqb a) (r_fixed r) = false /\ v <> None.
Lemma loop_settable o kw : forall w r, obj (w_heap w) o = Ok r -> snd (set_geometry_loop o kw w) = Ok tt -> settable r kw.
Proof.
  induction kw as [|[a v] kw IH]; intros w r Hr Hs b x H; [destruct H|]. cbn [set_geometry_loop] in Hs. rewrite (bind_get o r _ _ Hr) in Hs.
  destruct (existsb (angle_eqb a) (r_fixed r)) eqn:Ex; [discriminate Hs|]. destruct v as [y|]; [|discriminate Hs]. rewrite bind_put in Hs.
  destruct H as [H|H]; [injection H as <- <-; split; [exact Ex|discriminate]|]. exact (IH _ _ (put_get _ _ _ _ Hr) Hs b x H).
Qed.
Lemma loop_target o kw : forall w r, obj (w_heap w) o = Ok r -> settable r kw ->
  snd (set_geometry_loop o kw w) = Ok tt /\ w_heap (fst (set_geometry_loop o kw w)) = w_heap (fst (put_obj o (ang_all kw r) w)).
Proof.
  induction kw as [|[a v] kw IH]; intros w r Hr Hs; cbn [set_geometry_loop].
  - split; [reflexivity|]. cbn [ang_all fold_left ret fst]. rewrite put_self; [reflexivity|exact Hr].
  - rewrite (bind_get o r _ _ Hr). destruct (Hs a v (or_introl eq_refl)) as [-> Hv]. destruct v as [x|]; [|now contradict Hv]. rewrite bind_put.
    destruct (IH _ _ (put_get o r (with_ang r a x) w Hr)) as [I1 I2]; [intros b y H; apply (Hs b y); now right|].
    split; [exact I1|]. rewrite I2, put_put. reflexivity.
Qed.
Lemma ang_all_frame kw : forall r, r_fixed (ang_all kw r) = r_fixed r /\ r_mono (ang_all kw r) = r_mono r.
Proof. induction kw as [|[a [x|]] kw IH]; intros r; [split; reflexivity|exact (IH (with_ang r a x))|exact (IH r)]. Qed.
Lemma geometry_again o kw k w ws r : obj (w_heap w) o = Ok r -> snd (set_geometry o kw w) = Ok tt ->
  w_heap ws = w_heap (fst (set_geometry o (firstn k kw) w)) ->
  snd (set_geometry o kw ws) = Ok tt /\ w_heap (fst (set_geometry o kw ws)) = w_heap (fst (set_geometry o kw w)).
Proof.
  intros Hr. unfold set_geometry. destruct (rmap _ kw) as [akw|e] eqn:Ek; [|discriminate]. rewrite (rmap_firstn _ _ _ k Ek), !(bind_get o r _ _ Hr).
  destruct (existsb _ akw && r_mono r) eqn:Ex; [discriminate|].
  assert (Ex' : existsb (fun av : angle * option pyval => angle_eqb TEx (fst av) || angle_eqb PEx (fst av)) (firstn k akw) && r_mono r = false).
  { apply andb_false_iff in Ex. destruct Ex as [Ex|Ex]; [|rewrite Ex; apply andb_false_r]. now rewrite existsb_firstn. }
  rewrite Ex', !clear_then. fold (cleared_w w). intros Hs E. rewrite <- cw_obj in Hr. pose proof (loop_settable o akw _ r Hr Hs) as St.
  assert (I : forall av, In av (firstn k akw) -> In av akw) by (intros av H; rewrite <- (firstn_skipn k akw); apply in_or_app; now left).
  destruct (loop_target o (firstn k akw) _ r Hr) as [_ E2]; [intros a v H; apply St, I, H|]. rewrite E2 in E.
  set (r' := ang_all (firstn k akw) r) in *. destruct (ang_all_frame (firstn k akw) r) as [F1 F2]. fold r' in F1, F2.
  assert (Hr' : obj (w_heap ws) o = Ok r') by (rewrite E; eapply put_get; exact Hr).
  rewrite (bind_get o r' _ _ Hr'), F2, Ex, clear_then. fold (cleared_w ws). rewrite <- cw_obj in Hr'.
  destruct (loop_target o akw _ r' Hr') as [A1 A2]; [intros a v H; rewrite F1; apply St, H|]. split; [exact A1|]. rewrite A2.
  destruct (loop_target o akw _ r Hr St) as [_ B2]. rewrite B2. unfold r'. rewrite (absorb_all akw _ I).
  cbn [put_obj fst w_heap set_heap] in *. change (w_heap (cleared_w ws)) with (w_heap ws). rewrite E. unfold set_objs. cbn [h_be h_seng h_arrs h_scats h_objs]. rewrite list_set_twice. reflexivity.
Qed.

(** ** C103 *)
(** the calls that configure an object *)
Definition configures (p : op) : option nat :=
  match p with
  | OSetGeometry o _ | OSetMono o _ | OSetBi o _ _ _ _ | OSetDef o _ _ => Some o
  | _ => None
  end.
Lemma none_ok {A} (m : M A) w : snd (as_out none_of m w) = RetNone -> exists a, snd (m w) = Ok a.
Proof. unfold as_out. destruct (m w) as [w' [a|e]]; cbn; [now exists a|discriminate]. Qed.
Lemma fst_out {A} (f : A -> out) (m : M A) w : fst (as_out f m w) = fst (m w).
Proof. unfold as_out. destruct (m w); reflexivity. Qed.
Lemma out_ok (m : M unit) w : snd (m w) = Ok tt -> snd (as_out none_of m w) = RetNone.
Proof. unfold as_out. destruct (m w) as [w' r]; cbn. now intros ->. Qed.
Lemma def_over r p d : with_def (with_def r p d) p d = with_def r p d.
Proof. destruct r. unfold with_def. cbn. f_equal. extensionality z. now destruct p, z. Qed.
(** a call stopped anywhere and made again gives the objects of the call made once, with caches that agree with them *)
Lemma again J w p o n : Sim J w (bare (w_heap w)) -> configures p = Some o -> snd (step w p) = RetNone ->
  let ws := stopped n (c_op p) w in
  snd (step ws p) = RetNone /\ w_heap (fst (step ws p)) = w_heap (fst (step w p)) /\ exists u, Sim J (fst (step ws p)) u.
Proof.
  intros HS Hp Hn ws.
  assert (Ho : exists r, obj (w_heap w) o = Ok r).
  { destruct (obj (w_heap w) o) as [r|e] eqn:Hr; [now exists r|]. exfalso.
    destruct p; try discriminate Hp; injection Hp as ->; cbn [step] in Hn; apply none_ok in Hn; destruct Hn as [a Hn].
    - unfold set_geometry in Hn. destruct (rmap _ kw); [|discriminate Hn]. unfold bind, get_obj, gets in Hn. rewrite Hr in Hn. discriminate Hn.
    - unfold set_monostatic, bind, get_obj, gets in Hn. rewrite Hr in Hn. discriminate Hn.
    - unfold set_bistatic, bind, get_obj, gets in Hn. rewrite Hr in Hn. discriminate Hn.
    - unfold set_def in Hn. unfold bind, get_obj, gets in Hn. cbn in Hn. rewrite Hr in Hn. discriminate Hn. }
  destruct Ho as [r Hr]. destruct p; try discriminate Hp; injection Hp as ->; cbn [step c_op] in *; subst ws; rewrite stopped_out, !fst_out; apply none_ok in Hn; destruct Hn as [[] Hn].
  - destruct (stopped_geometry J o kw n w _ HS) as (k & u & _ & S1 & E1). destruct (geometry_again o kw k w _ r Hr Hn E1) as [A1 A2].
    split; [now apply out_ok|]. split; [exact A2|]. destruct (cl_set_geometry J o kw _ _ (Sim_SimN _ _ _ S1)) as (_ & _ & C). eexists. apply C. now exists tt.
  - match goal with |- context [c_monostatic o ?a] => rename a into q0 end.
    assert (M0 : mid J o w r (target_mono q0) w). { split; [now apply Sim_SimN|]. exists r. split; [now rewrite put_self|reflexivity]. }
    pose proof (along_stopped _ _ n w (inv_mono J o w r Hr q0 w M0)) as [S1 (r' & E1 & T1)]. pose proof (mid_obj o w r Hr _ r' E1) as Hr'.
    pose proof (mono_ok o q0 w _ r r' Hr Hr' Hn) as A1. split; [now apply out_ok|]. split.
    + rewrite (mono_target o q0 _ r' Hr' A1), (mono_target o q0 w r Hr Hn), T1.
      cbn [put_obj fst w_heap set_heap] in *. rewrite E1. unfold set_objs. cbn [h_be h_seng h_arrs h_scats h_objs]. rewrite list_set_twice. reflexivity.
    + destruct (cl_set_monostatic J o q0 _ _ S1) as (_ & _ & C). eexists. apply C. now exists tt.
  - match goal with |- context [c_bistatic o ?a ?b ?c ?d] => rename a into a0, b into a1, c into a2, d into a3 end.
    assert (M0 : mid J o w r (target_bi a0 a1 a2 a3) w). { split; [now apply Sim_SimN|]. exists r. split; [now rewrite put_self|reflexivity]. }
    pose proof (along_stopped _ _ n w (inv_bi J o w r Hr a0 a1 a2 a3 w M0)) as [S1 (r' & E1 & T1)]. pose proof (mid_obj o w r Hr _ r' E1) as Hr'.
    pose proof (bi_run o a0 a1 a2 a3 w r Hr Hn) as G. destruct (bi_target o a0 a1 a2 a3 _ r' Hr' G) as [A1 A2]. destruct (bi_target o a0 a1 a2 a3 w r Hr G) as [_ B2].
    split; [now apply out_ok|]. split.
    + rewrite A2, B2, T1. cbn [put_obj fst w_heap set_heap] in *. rewrite E1. unfold set_objs. cbn [h_be h_seng h_arrs h_scats h_objs]. rewrite list_set_twice. reflexivity.
    + destruct (cl_set_bistatic J o a0 a1 a2 a3 _ _ S1) as (_ & _ & C). eexists. apply C. now exists tt.
  - destruct (stopped_def J o p d n w _ HS) as (u & S1 & E1). set (ws := stopped n _ w) in *. clearbody ws.
    assert (D : forall w r, obj (w_heap w) o = Ok r -> snd (set_def o p d w) = Ok tt /\ w_heap (fst (set_def o p d w)) = w_heap (fst (put_obj o (with_def r p d) w))).
    { intros w1 r1 H1. unfold set_def. change ((clear_param_cache;;; (do r1 <- get_obj o;; put_obj o (with_def r1 p d))) w1) with ((do r1 <- get_obj o;; put_obj o (with_def r1 p d)) (fst (clear_param_cache w1))).
      rewrite (bind_get o r1) by exact H1. split; reflexivity. }
    destruct (D w r Hr) as [_ D2].
    assert (Q : snd (set_def o p d ws) = Ok tt /\ w_heap (fst (set_def o p d ws)) = w_heap (fst (set_def o p d w))).
    { destruct E1 as [E1|E1].
      - destruct (D ws r) as [X Y]; [now rewrite E1|]. split; [exact X|]. rewrite Y, D2. cbn [put_obj fst w_heap set_heap]. now rewrite E1.
      - rewrite D2 in E1. destruct (D ws (with_def r p d)) as [X Y]; [rewrite E1; eapply put_get; exact Hr|]. split; [exact X|]. rewrite Y, D2, def_over.
        cbn [put_obj fst w_heap set_heap] in *. rewrite E1. unfold set_objs. cbn [h_be h_seng h_arrs h_scats h_objs]. rewrite list_set_twice. reflexivity. }
    destruct Q as [Q1 Q2]. split; [now apply out_ok|]. split; [exact Q2|].
    destruct (clear_param_Sim J ws u S1) as [S2 E2]. assert (Ho : exists r1, obj (w_heap ws) o = Ok r1).
    { destruct (obj (w_heap ws) o) as [r1|e] eqn:X; [now exists r1|]. exfalso. unfold set_def, bind, get_obj, gets in Q1. cbn in Q1. rewrite X in Q1. discriminate Q1. }
    destruct Ho as [r1 H1]. unfold set_def. change ((clear_param_cache;;; (do r1 <- get_obj o;; put_obj o (with_def r1 p d))) ws) with ((do r1 <- get_obj o;; put_obj o (with_def r1 p d)) (fst (clear_param_cache ws))).
    rewrite (bind_get o r1) by exact H1. eexists. eapply SimP_put; [exact S2|exact E2|exact H1|agr|agr].
Qed.

(** An interrupted call can be repeated: stopped after any number of steps and made again, it returns and
    leaves behind what it does when it is not interrupted; everything after it is not affected. *)
Theorem C103_repeat seng ps p o n c :
  let w := fst (run (init seng true) ps) in
  adm [] (init seng true) (ps ++ p :: c) -> configures p = Some o -> snd (step w p) = RetNone ->
  snd (run (stopped n (c_op p) w) (p :: c)) = snd (run w (p :: c)).
Proof.
  intros w Ha Hp Hn. apply adm_app in Ha. destruct Ha as [Ha [A1 A2]]. fold w in A1, A2.
  destruct (run_Sim ps [] _ _ (Sim_init seng) (HB_init seng) Ha) as [HS HB0]. fold w in HS, HB0. apply Sim_bare in HS. set (J := fold_left J_after ps []) in *.
  destruct (again J w p o n HS Hp Hn) as (X & Y & u & Z). assert (EJ : J_after J p = J) by (destruct p; try discriminate Hp; reflexivity). rewrite EJ in A2.
  destruct (step_sim J w _ p HS HB0 A1) as [_ S1]. rewrite EJ in S1. pose proof (two_runs c J _ _ _ _ S1 Z (eq_sym Y) (step_HB w p HB0) A2) as R.
  cbn [run]. destruct (step w p) as [w1 x1], (step (stopped n (c_op p) w) p) as [w2 x2]. cbn [fst snd] in *. destruct (run w1 c), (run w2 c). cbn [snd] in *. congruence.
Qed.
(** What an interrupted set_geometry leaves behind: the call with the first [k] of its angles has been made. *)
Theorem C103_partial seng ps o kw n :
  let w := fst (run (init seng true) ps) in
  adm [] (init seng true) ps ->
  exists k, k <= length kw /\ forall c, adm [] (init seng true) (ps ++ OSetGeometry o (firstn k kw) :: c) ->
    snd (run (stopped n (c_op (OSetGeometry o kw)) w) c) = snd (run (fst (step w (OSetGeometry o (firstn k kw)))) c).
Proof.
  intros w Ha. destruct (run_Sim ps [] _ _ (Sim_init seng) (HB_init seng) Ha) as [HS HB0]. fold w in HS, HB0. set (J := fold_left J_after ps []) in *.
  cbn [c_op]. rewrite stopped_out. destruct (stopped_geometry J o kw n w _ HS) as (k & u & K & S1 & E1). exists k. split; [exact K|].
  intros c Hc. apply adm_app in Hc. destruct Hc as [_ [_ A2]]. fold w J in A2. change (J_after J (OSetGeometry o (firstn k kw))) with J in A2.
  destruct (step_sim J w _ (OSetGeometry o (firstn k kw)) HS HB0 Logic.I) as [_ S2]. apply (two_runs c J _ _ _ _ S2 S1); [|apply step_HB, HB0|exact A2].
  cbn [step]. rewrite fst_out. symmetry. exact E1.
Qed.
(** An interrupted setter of tau, omega, NormBRDF or bsf has either done nothing or its work. *)
Theorem C103_setters_partial seng ps o p d n :
  let w := fst (run (init seng true) ps) in
  let ws := stopped n (c_op (OSetDef o p d)) w in
  adm [] (init seng true) ps ->
  (forall c, adm [] (init seng true) (ps ++ c) -> snd (run ws c) = snd (run w c)) \/
  (forall c, adm [] (init seng true) (ps ++ OSetDef o p d :: c) -> snd (run ws c) = snd (run (fst (step w (OSetDef o p d))) c)).
Proof.
  intros w ws Ha. destruct (run_Sim ps [] _ _ (Sim_init seng) (HB_init seng) Ha) as [HS HB0]. fold w in HS, HB0. set (J := fold_left J_after ps []) in *.
  subst ws. cbn [c_op]. rewrite stopped_out. destruct (stopped_def J o p d n w _ HS) as (u & S1 & [E1|E1]); [left|right]; intros c Hc; apply adm_app in Hc; fold w J in Hc.
  - destruct Hc as [_ A2]. apply (two_runs c J _ _ _ _ HS S1); auto.
  - destruct Hc as [_ [_ A2]]. change (J_after J (OSetDef o p d)) with J in A2.
    destruct (step_sim J w _ (OSetDef o p d) HS HB0 Logic.I) as [_ S2]. apply (two_runs c J _ _ _ _ S2 S1); [|apply step_HB, HB0|exact A2].
    cbn [step]. rewrite fst_out. symmetry. exact E1.
Qed.

(** The intended property, for all these calls: whatever the step after which the call is stopped, no value
    from before the call survives in a cache: later calls return what they return on an object with the same
    settings and no caches at all. *)
Definition C103_intended : Prop := forall seng ps p o n c,
  let w := fst (run (init seng true) ps) in let ws := stopped n (c_op p) w in
  adm [] (init seng true) (ps ++ [p]) -> configures p = Some o -> adm (fold_left J_after ps []) ws c ->
  snd (run ws c) = snd (run (bare (w_heap ws)) c).
(** It holds for set_geometry and the setters (and see above for what they leave behind). *)
Lemma HB_stopped_geometry o kw n w J u : HB (w_heap w) -> Sim J w u -> HB (w_heap (stopped n (c_geometry o kw) w)).
Proof.
  intros H HS. destruct (stopped_geometry J o kw n w u HS) as (k & _ & _ & _ & E). rewrite E.
  pose proof (step_HB w (OSetGeometry o (firstn k kw)) H) as X. cbn [step] in X. now rewrite fst_out in X.
Qed.
Theorem C103_fresh_partial seng ps p n c :
  let w := fst (run (init seng true) ps) in let ws := stopped n (c_op p) w in
  adm [] (init seng true) (ps ++ [p]) -> match p with OSetGeometry _ _ | OSetDef _ _ _ => True | _ => False end ->
  adm (fold_left J_after ps []) ws c -> snd (run ws c) = snd (run (bare (w_heap ws)) c).
Proof.
  intros w ws Ha Hp Hc. apply adm_app in Ha. destruct Ha as [Ha _]. destruct (run_Sim ps [] _ _ (Sim_init seng) (HB_init seng) Ha) as [HS HB0]. fold w in HS, HB0.
  set (J := fold_left J_after ps []) in *.
  assert (X : (exists u, Sim J ws u) /\ HB (w_heap ws)).
  { subst ws. destruct p; try destruct Hp; cbn [c_op]; rewrite stopped_out.
    - destruct (stopped_geometry J o kw n w _ HS) as (k & u & _ & S1 & _). split; [now exists u|]. eapply HB_stopped_geometry; eassumption.
    - destruct (stopped_def J o p d n w _ HS) as (u & S1 & E). split; [now exists u|]. destruct E as [E|E]; rewrite E; [exact HB0|].
      pose proof (step_HB w (OSetDef o p d) HB0) as X. cbn [step] in X. now rewrite fst_out in X. }
  destruct X as [[u S1] HB1]. symmetry. exact (proj1 (run_bare c J ws _ Hc (Sim_bare _ _ _ S1) HB1)).
Qed.
(** It fails for set_monostatic: stopped after [self._monostatic = True], the cached cosine of the old t_ex is
    still used, although t_ex is now t_0.  Here three values are returned for a single pair of angles. *)
Definition twodir : list op := histS [] [] ++
  [ ONewArr (mk_nd [1] (fun _ => Fin (1/2))); ONewArr (mk_nd [3] (fun _ => Fin (1/4)));
    OSetBi 0 None None None None;
    OSetGeometry 0 [("t_0", Some (PArr 3)); ("t_ex", Some (PArr 4)); ("p_0", Some (PNum (Fin 0))); ("p_ex", Some (PNum (Fin 0)))];
    OSurface 0 [] ].
Definition look : list op := [OSurface 0 []; OReadAngle 0 T0; OReadAngle 0 TEx].
Definition shps (l : list out) : list (list nat) := map (fun x => match x with RetArr a => shp a | _ => [] end) l.
Lemma stale_look : let w := fst (run (init true true) twodir) in let ws := stopped 1 (c_op (OSetMono 0 None)) w in
  shps (snd (run w look)) = [[3]; [1]; [3]] /\ shps (snd (run (fst (step w (OSetMono 0 None))) look)) = [[1]; [1]; [1]] /\
  shps (snd (run ws look)) = [[3]; [1]; [1]] /\ shps (snd (run (bare (w_heap ws)) look)) = [[1]; [1]; [1]].
Proof. split; [|split; [|split]]; vm_compute; reflexivity. Qed.
Lemma twodir_adm qs : adm [] (fst (run (init true true) twodir)) qs -> adm [] (init true true) (twodir ++ qs).
Proof.
  intros H. refine (adm_join [] [] (init true true) twodir qs _ eq_refl H).
  unfold twodir. apply histS_adm. admx.
Qed.
Theorem C103_refuted : ~ C103_intended.
Proof.
  intros C. specialize (C true twodir (OSetMono 0 None) 0 1 look). cbv zeta in C.
  destruct stale_look as (_ & _ & E1 & E2). rewrite C in E1.
  - rewrite E1 in E2. discriminate E2.
  - apply twodir_adm. admx.
  - reflexivity.
  - unfold look. split; [intros []|]. split; [exact Logic.I|]. split; [exact Logic.I|exact Logic.I].
Qed.

(** the interruptions are not trivial: each call has several steps, and the stops differ *)
Definition half : op := OSetGeometry 0 [("t_0", Some (PArr 4)); ("t_ex", Some (PArr 3))].
Example C103_nonvacuous :
  let w := fst (run (init true true) twodir) in
  adm [] (init true true) (twodir ++ half :: look) /\ configures half = Some 0 /\ snd (step w half) = RetNone /\
  map (fun n => shps (snd (run (stopped n (c_op half) w) look))) [0; 5; 6; 7; 8; 9] =
    [ [[3]; [1]; [3]]; [[3]; [1]; [3]]; [[3]; [1]; [3]]; [[3]; [3]; [3]]; [[3]; [3]; [3]]; [[3]; [3]; [1]] ] /\
  adm [] (init true true) (twodir ++ OSetMono 0 (Some (FNum (1#2))) :: look) /\ snd (step w (OSetMono 0 (Some (FNum (1#2))))) = RetNone /\
  shps (snd (run (stopped 3 (c_op (OSetMono 0 (Some (FNum (1#2))))) w) (OSetMono 0 (Some (FNum (1#2))) :: look))) = [[]; [1]; [1]; [1]].
Proof.
  cbv zeta. split; [apply twodir_adm; unfold half, look; admx|]. split; [reflexivity|]. split; [vm_compute; reflexivity|]. split; [vm_compute; reflexivity|].
  split; [apply twodir_adm; unfold look; admx|]. split; vm_compute; reflexivity.
Qed.

Print Assumptions C103_repeat.
Print Assumptions C103_partial.
Print Assumptions C103_setters_partial.
Print Assumptions C103_fresh_partial.
Print Assumptions C103_refuted.
