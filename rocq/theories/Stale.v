(** In-place changes of an array the caller passed to set_geometry (np.atleast_1d keeps the array
    itself, _calc.py:398-401), seen by the cosine caches (_calc.py:71-85, 272-303). *)
From Verif Require Export Api NumApi Frame.
Open Scope nat_scope.

(** everything but the four cosine caches agrees with a recomputation *)
Definition CohN (w : world) : Prop :=
  forall n k v, is_G n = false -> In (k, v) (w_caches w n) -> fresh (w_heap w) n k = Ok v.
Definition SimN (J : list nat) (w u : world) : Prop :=
  w_on w = true /\ w_on u = false /\ w_heap w = w_heap u /\ CohN w /\ Dok J w.

Lemma Sim_SimN J w u : Sim J w u -> SimN J w u.
Proof. intros (A & B & C & D & E). repeat split; auto. intros n k v _. apply D. Qed.
Lemma SimN_Sim J w u : SimN J w u -> Empty is_G w -> Sim J w u.
Proof.
  intros (A & B & C & D & E) G. repeat split; auto. intros n k v Hin.
  destruct (is_G n) eqn:En; [rewrite (G n En) in Hin; destruct Hin|now apply D].
Qed.
Lemma clear_SimN J w u : SimN J w u ->
  Sim J (fst (clear_geom_cache w)) (fst (clear_geom_cache u)) /\ Empty is_G (fst (clear_geom_cache w)).
Proof.
  intros H. assert (HE : Empty is_G (fst (clear_geom_cache w))).
  { intros n Hn. destruct n; try discriminate Hn; reflexivity. }
  split; [|exact HE]. apply SimN_Sim; [|exact HE]. destruct H as (A & B & C & D & E). repeat split; auto.
  - intros n k v Hn Hin. apply (D n k v Hn). destruct n; try discriminate Hn; exact Hin.
  - intros n k v Hn Hin. apply (E n k v Hn). destruct n; try discriminate Hn; exact Hin.
Qed.

(** ** the caller changes an array *)
Lemma nth_list_set_ne {A} (l : list A) n x i : i <> n -> nth_error (list_set l n x) i = nth_error l i.
Proof.
  revert n i. induction l as [|y l IH]; intros n i H; [reflexivity|].
  destruct n as [|n], i as [|i]; cbn [list_set nth_error]; try congruence; try reflexivity. apply IH. congruence.
Qed.
Lemma fresh_arrs h ar n k : is_G n = false ->
  fresh (mk_heap (h_be h) (h_seng h) ar (h_scats h) (h_objs h)) n k = fresh h n k.
Proof. intros H. destruct n; try discriminate H; reflexivity. Qed.
Lemma mutate_SimN J aid f w u : SimN J w u ->
  snd (mutate aid f w) = snd (mutate aid f u) /\ SimN J (fst (mutate aid f w)) (fst (mutate aid f u)).
Proof.
  intros (A & B & C & D & E). unfold mutate. rewrite <- C. destruct (nth_error (h_arrs (w_heap w)) aid) as [a|].
  - split; [reflexivity|]. repeat split; auto. intros n k v Hn Hin. cbn [fst w_heap set_heap w_caches] in *.
    rewrite (fresh_arrs _ _ _ _ Hn). now apply D.
  - split; [reflexivity|]. repeat split; auto.
Qed.
Lemma add_arr_SimN J a w u : SimN J w u ->
  snd (add_arr a w) = snd (add_arr a u) /\ SimN J (fst (add_arr a w)) (fst (add_arr a u)).
Proof.
  intros (A & B & C & D & E). unfold add_arr. rewrite <- C. split; [reflexivity|].
  repeat split; auto. intros n k v Hn Hin. cbn [fst w_heap set_heap w_caches] in *.
  rewrite (fresh_arrs _ _ _ _ Hn). now apply D.
Qed.

(** ** geometry calls *)
Definition cleared {A} (J : list nat) (m : M A) : Prop :=
  forall w u, SimN J w u ->
    snd (m w) = snd (m u) /\ SimN J (fst (m w)) (fst (m u)) /\
    ((exists a, snd (m w) = Ok a) -> Sim J (fst (m w)) (fst (m u))).
Lemma cleared_fail {A} J e : cleared J (@fail A e).
Proof. intros w u H. split; [reflexivity|]. split; [exact H|]. intros (a & X). discriminate X. Qed.
Lemma cleared_get {A} J o (k : rt1 -> M A) :
  (forall w u r, SimN J w u -> obj (w_heap w) o = Ok r ->
    snd (k r w) = snd (k r u) /\ SimN J (fst (k r w)) (fst (k r u)) /\
    ((exists a, snd (k r w) = Ok a) -> Sim J (fst (k r w)) (fst (k r u)))) ->
  cleared J (do r <- get_obj o ;; k r).
Proof.
  intros Hk w u H. pose proof H as (_ & _ & E & _ & _). unfold bind, get_obj, gets. rewrite <- E.
  destruct (obj (w_heap w) o) as [r|e] eqn:Hr; [now apply Hk|].
  split; [reflexivity|]. split; [exact H|]. intros (a & X). discriminate X.
Qed.
Lemma clear_then_ok {A} J (m : M A) w u : simE is_G J m -> SimN J w u ->
  let c := clear_geom_cache in
  snd ((c ;;; m) w) = snd ((c ;;; m) u) /\ Sim J (fst ((c ;;; m) w)) (fst ((c ;;; m) u)).
Proof.
  intros Hm H c. subst c. rewrite !clear_then. destruct (clear_SimN J w u H) as [HS HE].
  destruct (Hm _ _ HS HE) as (X & Y & _). auto.
Qed.
Lemma cl_set_geometry J o kw : cleared J (set_geometry o kw).
Proof.
  unfold set_geometry. destruct (rmap _ kw) as [akw|e]; [|apply cleared_fail].
  apply cleared_get. intros w u r HS Hr. destruct (_ && _); [now apply cleared_fail|].
  destruct (clear_then_ok J _ w u (sim_set_geometry_loop J o akw) HS) as [X Y].
  split; [exact X|]. split; [now apply Sim_SimN|]. intros _. exact Y.
Qed.
Lemma cl_set_monostatic J o p : cleared J (set_monostatic o p).
Proof.
  unfold set_monostatic. apply cleared_get. intros w u r HS Hr. rewrite !put_clear, !clear_then.
  destruct (clear_SimN J w u HS) as (HS1 & HE1). rewrite <- (clear_heap w) in Hr.
  clear HS. revert HS1 HE1 Hr.
  generalize (fst (clear_geom_cache w)) as w1, (fst (clear_geom_cache u)) as u1. clear w u.
  intros w u HS HE Hr.
  destruct (SimG_put J w u o r (with_mode r true) HS HE Hr) as [HS' HE']; [agr|agr|].
  rewrite !bind_put. match goal with |- snd (?m _) = _ /\ _ => set (mm := m) end.
  enough (X : simE is_G J mm).
  { destruct (X _ _ HS' HE') as (X1 & X2 & _). split; [exact X1|]. split; [now apply Sim_SimN|]. intros _. exact X2. }
  subst mm. clear.
  apply simE_get_obj_bind. intros w u r HS HE Hr. rewrite !bind_put.
  set (r' := with_fnev _ _).
  destruct (SimG_put J w u o r r' HS HE Hr) as [HS' HE']; [agr|agr|].
  apply (put_obj_obj o r r' w) in Hr. revert HS' HE' Hr.
  generalize (fst (put_obj o r' w)) as w1, (fst (put_obj o r' u)) as u1.
  clear w u HS HE. intros w u HS HE Hr.
  destruct p as [[q|]|]; [| |].
  - split; [reflexivity|]. eapply SimG_put; eauto; agr.
  - split; [reflexivity|]. split; assumption.
  - split; [reflexivity|]. eapply SimG_put; eauto; agr.
Qed.
Lemma cl_set_bistatic J o a b c d : cleared J (set_bistatic o a b c d).
Proof.
  unfold set_bistatic. apply cleared_get. intros w u r HS Hr. rewrite !put_clear, !clear_then.
  destruct (clear_SimN J w u HS) as (HS1 & HE1). rewrite <- (clear_heap w) in Hr.
  clear HS. revert HS1 HE1 Hr.
  generalize (fst (clear_geom_cache w)) as w1, (fst (clear_geom_cache u)) as u1. clear w u.
  intros w u HS HE Hr.
  destruct (SimG_put J w u o r (with_mode r false) HS HE Hr) as [HS' HE']; [agr|agr|].
  rewrite !bind_put. match goal with |- snd (?m _) = _ /\ _ => set (mm := m) end.
  enough (X : simE is_G J mm).
  { destruct (X _ _ HS' HE') as (X1 & X2 & _). split; [exact X1|]. split; [now apply Sim_SimN|]. intros _. exact X2. }
  subst mm. clear.
  apply (simE_put_then J o (fun r => with_fnev (with_fn (with_fixed r []) None) None)); [intros; split; agr|intros _].
  do 4 (apply simE_bind; [apply simE_bistatic_step|intros]).
  apply simE_put. intros; split; agr.
Qed.

(** ** evaluations that read a stale cosine cache *)
Definition simN {A} (J : list nat) (m : M A) : Prop :=
  forall w u, SimN J w u ->
    snd (m w) = snd (m u) /\ SimN J (fst (m w)) (fst (m u)) /\ forall n, is_G n = true -> w_caches (fst (m w)) n = w_caches w n.
Lemma simN_gets {A} J (f : heap -> res A) : simN J (gets f).
Proof. intros w u H. pose proof H as (_ & _ & E & _). unfold gets. cbn [fst snd]. rewrite E. auto. Qed.
Lemma simN_lift {A} J (r : res A) : simN J (lift r).
Proof. intros w u H. auto. Qed.
Lemma simN_ret {A} J (r : A) : simN J (ret r).
Proof. intros w u H. auto. Qed.
Lemma simN_fail {A} J e : simN J (@fail A e).
Proof. intros w u H. auto. Qed.
Lemma simN_bind {A B} J (m : M A) (k : A -> M B) :
  simN J m -> (forall a, simN J (k a)) -> simN J (bind m k).
Proof.
  intros Hm Hk w u H. unfold bind. destruct (Hm w u H) as (X & Y & Z).
  destruct (m w) as [w' r], (m u) as [u' r']; cbn [fst snd] in *. subst r'. destruct r as [a|e]; [|auto].
  destruct (Hk a w' u' Y) as (X' & Y' & Z'). split; [exact X'|]. split; [exact Y'|].
  intros n Hn. rewrite (Z' n Hn). now apply Z.
Qed.
Lemma SimN_set_cache J w u n c :
  SimN J w u -> (forall k v, In (k, v) c -> fresh (w_heap w) n k = Ok v) ->
  (is_D n = true -> forall k v, In (k, v) c -> In (fst k) J) -> SimN J (set_cache w n c) u.
Proof.
  intros (Hw & Hu & Hh & HC & HD) H Hd. repeat split; auto.
  - intros m k v Hm. simpl. destruct (cname_eqb n m) eqn:E.
    + apply cname_eqb_eq in E. subst. apply H.
    + now apply HC.
  - intros m k v Hm. simpl. destruct (cname_eqb n m) eqn:E.
    + apply cname_eqb_eq in E. subst. intros Hin. eapply Hd; eassumption.
    + now apply HD.
Qed.
Lemma simN_cached J n k m : is_G n = false -> is_D n = false ->
  simN J m -> pureU m (fun h => fresh h n k) -> simN J (cached n k m).
Proof.
  intros Hn Hd Hs Hp w u HS. unfold cached.
  pose proof HS as (H1 & H2 & H3 & H4 & H5). rewrite H1, H2.
  assert (Go : forall m', is_G m' = true -> cname_eqb n m' = false).
  { intros m' Hm. destruct (cname_eqb n m') eqn:E; [|reflexivity]. apply cname_eqb_eq in E. congruence. }
  destruct (lru_get (w_caches w n) k) as [v|] eqn:E.
  - apply lru_get_In in E. pose proof (H4 _ _ _ Hn E) as Hf. rewrite Hp by assumption. cbn [fst snd].
    split; [rewrite <- H3; now rewrite Hf|]. split.
    + apply SimN_set_cache; [assumption| |congruence].
      intros k' v' Hin. apply In_touch in Hin. destruct Hin as [Hin|Hin]; [inversion Hin; subst; assumption|now apply H4].
    + intros m' Hm. cbn [set_cache w_caches]. now rewrite (Go m' Hm).
  - destruct (Hs w u HS) as (He & HS' & Hg). rewrite (Hp u H2) in *.
    destruct (m w) as [w' r]; cbn [fst snd] in *. subst r.
    destruct (fresh (w_heap u) n k) as [v|e] eqn:Ef; cbn [fst snd]; [|auto].
    split; [reflexivity|]. pose proof HS' as (H1' & H2' & H3' & H4' & H5'). split.
    + apply SimN_set_cache; [assumption| |congruence].
      intros k' v' Hin. apply In_put in Hin. destruct Hin as [Hin|Hin]; [|now apply H4'].
      inversion Hin; subst. rewrite H3'. exact Ef.
    + intros m' Hm. cbn [set_cache w_caches]. rewrite (Go m' Hm). now apply Hg.
Qed.
(** a hit returns the stored value, whatever it is *)
Lemma stale_hit J n k m w u v : is_G n = true -> SimN J w u -> lru_get (w_caches w n) k = Some v ->
  snd (cached n k m w) = Ok v /\ SimN J (fst (cached n k m w)) u /\
  (forall n', n' <> n -> w_caches (fst (cached n k m w)) n' = w_caches w n').
Proof.
  intros Hn (A & B & C & D & E) Hg. unfold cached. rewrite A, Hg. cbn [fst snd].
  split; [reflexivity|]. split.
  - repeat split; auto.
    + intros n' k' v' Hn' Hin. apply (D n' k' v' Hn'). cbn [set_cache w_caches] in Hin.
      destruct (cname_eqb n n') eqn:En; [apply cname_eqb_eq in En; congruence|exact Hin].
    + intros n' k' v' Hn' Hin. apply (E n' k' v' Hn'). cbn [set_cache w_caches] in Hin.
      destruct (cname_eqb n n') eqn:En; [apply cname_eqb_eq in En; subst; destruct n'; discriminate|exact Hin].
  - intros n' Hn'. cbn [set_cache w_caches]. destruct (cname_eqb n n') eqn:En; [apply cname_eqb_eq in En; congruence|reflexivity].
Qed.

Lemma simN_get_obj J o : simN J (get_obj o). Proof. apply simN_gets. Qed.
Lemma simN_ang J o a : simN J (m_ang o a). Proof. apply simN_gets. Qed.
Lemma simN_I0 J o : simN J (get_I0 o). Proof. apply simN_gets. Qed.
Ltac sNgo :=
  repeat first
    [ assumption
    | match goal with
      | |- forall _, _ => intro
      | |- simN _ (ret _) => apply simN_ret
      | |- simN _ (fail _) => apply simN_fail
      | |- simN _ (lift _) => apply simN_lift
      | |- simN _ (gets _) => apply simN_gets
      | |- simN _ (get_obj _) => apply simN_get_obj
      | |- simN _ (m_ang _ _) => apply simN_ang
      | |- simN _ (get_I0 _) => apply simN_I0
      | |- simN _ (bind _ _) => apply simN_bind
      | |- simN _ (match ?x with _ => _ end) => destruct x
      end ].
Lemma simN_symbs J o p : simN J (get_param_symbs o p).
Proof.
  unfold get_param_symbs. apply simN_bind; [|sNgo]. apply simN_cached; [reflexivity|reflexivity|sNgo|apply body_symbs].
Qed.
Lemma simN_funcs J o p : simN J (get_param_funcs o p).
Proof.
  unfold get_param_funcs. fold (funcs_body o p). apply simN_bind; [|sNgo]. apply simN_cached; [reflexivity|reflexivity| |apply body_funcs].
  unfold funcs_body. pose proof (simN_symbs J o p). sNgo.
Qed.
Lemma simN_eval_param J o p : simN J (eval_param o p).
Proof. unfold eval_param. pose proof (simN_symbs J o p). pose proof (simN_funcs J o p). sNgo. Qed.
Lemma simN_param J o p : simN J (param_val o p).
Proof. unfold param_val. pose proof (simN_eval_param J o p). sNgo. Qed.
Lemma simN_scat_calc J s a b c d kw : simN J (scat_calc s a b c d kw).
Proof.
  unfold scat_calc, lambda_func. apply simN_bind; [|sNgo]. apply simN_bind; [|sNgo].
  apply simN_cached; [reflexivity|reflexivity|sNgo|apply body_lambda].
Qed.
Lemma simN_scat J o x : simN J (obj_scat_calc o x).
Proof. unfold obj_scat_calc. do 4 (apply simN_bind; [apply simN_ang|intro]). do 2 (apply simN_bind; [apply simN_gets|intro]). apply simN_scat_calc. Qed.

(** an evaluation of object [o] under configuration [C] is in progress *)
Section Progress.
  Variables (J : list nat) (h : heap) (o : nat) (C : config) (fe : res (option compiled)).
  Definition prog (w : world) : Prop := exists l k r,
    SimN J w (mk_world (set_objs h l) false k) /\ nth_error l o = Some r /\ conf h r = C /\ fnev_next h r = fe.
  Lemma prog_step {A} (m : M A) x w : prog w -> simN J m -> pure_at h C fe o m x ->
    snd (m w) = x /\ prog (fst (m w)) /\ forall n, is_G n = true -> w_caches (fst (m w)) n = w_caches w n.
  Proof.
    intros (l & k & r & HS & Hn & Hc & Hf) Hs Hp. destruct (Hp l k r Hn Hc Hf) as (r' & E & _ & Hc' & Hf').
    destruct (Hs _ _ HS) as (X & Y & Z). rewrite E in X, Y. cbn [fst snd] in X, Y.
    split; [exact X|]. split; [|exact Z]. exists (list_set l o r'), k, r'. split; [exact Y|]. split; [|auto].
    exact (nth_error_list_set_same _ _ _ _ Hn).
  Qed.
  Lemma prog_bind {A B} (m : M A) (k : A -> M B) x w : prog w -> simN J m -> pure_at h C fe o m x ->
    exists w', prog w' /\ (forall n, is_G n = true -> w_caches w' n = w_caches w n) /\
      snd (bind m k w) = (let* a := x in snd (k a w')).
  Proof.
    intros H Hs Hp. destruct (prog_step m x w H Hs Hp) as (X & Y & Z). exists (fst (m w)). split; [exact Y|]. split; [exact Z|].
    unfold bind. destruct (m w) as [w' [a|e]]; cbn [fst snd] in *; subst x; reflexivity.
  Qed.
  Lemma prog_hit {B} n m (k : nd xr -> M B) v w : is_G n = true -> prog w ->
    lru_get (w_caches w n) (o, []) = Some (VArr v) ->
    exists w', prog w' /\ (forall n', n' <> n -> w_caches w' n' = w_caches w n') /\
      snd (bind (do y <- cached n (o, []) m ;; lift (as_arr y)) k w) = snd (k v w').
  Proof.
    intros Hn (l & kk & r & HS & HH) Hg. destruct (stale_hit J n (o, []) m w _ _ Hn HS Hg) as (X & Y & Z).
    exists (fst (cached n (o, []) m w)). split; [exists l, kk, r; auto|]. split; [exact Z|].
    unfold bind, lift. destruct (cached n (o, []) m w) as [w' y]; cbn [fst snd] in *. subst y. reflexivity.
  Qed.
End Progress.

Lemma pure_at_lift {A} h C fe o (x : res A) : pure_at h C fe o (lift x) x.
Proof. apply at_lift. Qed.

Ltac pbind P sl al w' P' G E :=
  match type of P with prog ?J ?h ?o ?C ?fe _ =>
    match goal with |- snd (bind ?m ?k ?w) = _ => edestruct (prog_bind J h o C fe m k _ w P sl al) as (w' & P' & G & E) end end.
Ltac phit P H n w' P' G E :=
  match type of P with prog ?J ?h ?o ?C ?fe _ =>
    match goal with |- snd (bind (bind (cached _ _ ?m) _) ?k ?w) = _ => edestruct (prog_hit J h o C fe n m k _ w eq_refl P H) as (w' & P' & G & E) end end.

(** volume() with cosines left over from earlier angles *)
Lemma volume_stale J h o C fe w m0 mx : prog J h o C fe w ->
  lru_get (w_caches w CMu0) (o, []) = Some (VArr m0) -> lru_get (w_caches w CMuEx) (o, []) = Some (VArr mx) ->
  snd (m_volume o w) =
    (let* i0 := c_I0 C in let* om := p_val C Omega in let* tau := p_val C Tau in
     let* v := p_scat C WV in let* bsf := p_val C Bsf in k_volume i0 om m0 mx tau v bsf).
Proof.
  intros P H0 Hx. unfold m_volume.
  pbind P (simN_I0 J o) (at_I0 h C fe o) w1 P1 G1 E. rewrite E. clear E P.
  rewrite <- (G1 CMu0 eq_refl) in H0. rewrite <- (G1 CMuEx eq_refl) in Hx. clear G1 w.
  destruct (c_I0 C) as [i0|]; [cbn [rbind]|reflexivity].
  pbind P1 (simN_param J o Omega) (at_val h C fe o Omega) w2 P2 G2 E. rewrite E. clear E P1.
  rewrite <- (G2 CMu0 eq_refl) in H0. rewrite <- (G2 CMuEx eq_refl) in Hx. clear G2 w1.
  destruct (p_val C Omega) as [om|]; [cbn [rbind]|reflexivity].
  unfold mu_0. phit P2 H0 CMu0 w3 P3 G3 E. rewrite E. clear E P2 H0.
  rewrite <- (G3 CMuEx) in Hx by discriminate. clear G3 w2.
  unfold mu_ex. phit P3 Hx CMuEx w4 P4 G4 E. rewrite E. clear E P3 Hx G4 w3.
  pbind P4 (simN_param J o Tau) (at_val h C fe o Tau) w5 P5 G E. rewrite E. clear E P4 G w4.
  destruct (p_val C Tau) as [tau|]; [cbn [rbind]|reflexivity].
  pbind P5 (simN_scat J o WV) (at_scat h C fe o WV) w6 P6 G E. rewrite E. clear E P5 G w5.
  destruct (p_scat C WV) as [v|]; [cbn [rbind]|reflexivity].
  pbind P6 (simN_param J o Bsf) (at_val h C fe o Bsf) w7 P7 G E. rewrite E. clear E P6 G w6.
  destruct (p_val C Bsf); reflexivity.
Qed.

Lemma SimN_bare J w u : SimN J w u -> SimN J w (bare (w_heap w)).
Proof. intros (A & B & C & D & E). repeat split; auto. Qed.
Lemma step_mutate_SimN J aid f w u : SimN J w u ->
  snd (step w (OMutate aid f)) = snd (step u (OMutate aid f)) /\
  SimN J (fst (step w (OMutate aid f))) (fst (step u (OMutate aid f))).
Proof.
  intros H. destruct (mutate_SimN J aid f w u H) as [X Y]. cbn [step]. unfold as_out.
  destruct (mutate aid f w) as [w' r], (mutate aid f u) as [u' r']. cbn [fst snd] in *. subst r'. auto.
Qed.
Lemma after_mutate seng ps aid f : adm [] (init seng true) ps ->
  let w := fst (run (init seng true) ps) in let w1 := fst (step w (OMutate aid f)) in
  exists J, SimN J w1 (bare (w_heap w1)) /\ HB (w_heap w1).
Proof.
  intros Ha w w1. destruct (run_Sim ps [] _ _ (Sim_init seng) (HB_init seng) Ha) as [HS HB].
  fold w in HS, HB. exists (fold_left J_after ps []). apply Sim_SimN in HS.
  destruct (step_mutate_SimN _ aid f _ _ HS) as (_ & HS'). fold w1 in HS'. split; [exact (SimN_bare _ _ _ HS')|].
  exact (step_HB w _ HB).
Qed.

(** volume() called without parameters, when the cosines are stale; intensities are returned as such *)
Lemma api_volume_stale J w o r m0 mx v : HB (w_heap w) -> obj (w_heap w) o = Ok r -> SimN J w (bare (w_heap w)) ->
  lru_get (w_caches w CMu0) (o, []) = Some (VArr m0) -> lru_get (w_caches w CMuEx) (o, []) = Some (VArr mx) ->
  let C := conf (w_heap w) r in
  (let* i0 := c_I0 C in let* om := p_val C Omega in let* tau := p_val C Tau in
   let* v := p_scat C WV in let* bsf := p_val C Bsf in k_volume i0 om m0 mx tau v bsf) = Ok v ->
  r_sig0 r = false ->
  snd (step w (OVolume o [])) = outA (k_convert false (r_dB r) (num 1) (num 1) v).
Proof.
  intros Hb Hr HS H0 Hx C Ev Hs. cbn [step]. unfold as_out, api_volume.
  unfold bind at 1. rewrite update_params_eq, (bind_get _ _ _ _ Hr), (upd_rec_nil _ _ _ Hb Hr).
  assert (Hn : nth_error (h_objs (w_heap w)) o = Some r) by (unfold obj in Hr; destruct (nth_error _ _); [inversion Hr; reflexivity|discriminate]).
  assert (Ew : fst (put_obj o r w) = w).
  { destruct w as [[] ? ?]. unfold put_obj, set_heap, set_objs. cbn [fst] in *. simpl in *. now rewrite (list_set_self _ _ _ Hn). }
  destruct (put_obj o r w) as [w' y] eqn:Ep. cbn [fst] in Ew. subst w'. assert (y = Ok tt) by (unfold put_obj in Ep; congruence). subst y.
  assert (P : prog J (w_heap w) o C (fnev_next (w_heap w) r) w).
  { exists (h_objs (w_heap w)), (fun _ => []), r. split; [|auto].
    replace (set_objs (w_heap w) (h_objs (w_heap w))) with (w_heap w) by (destruct (w_heap w); reflexivity). exact HS. }
  pose proof (volume_stale J _ o _ _ w m0 mx P H0 Hx) as E. cbv zeta in E. rewrite Ev in E.
  pose proof (fr_volume o w) as Fr. pose proof (evol_frame _ _ Fr) as (_ & _ & _ & _ & Ev' & _).
  destruct (Ev' o r Hr) as (r1 & Er1 & St). unfold bind. destruct (m_volume o w) as [w' y]. cbn [fst snd] in *. subst y.
  unfold m_convert. rewrite (bind_get _ _ _ _ Er1). unfold same_g in St.
  assert (S1 : r_sig0 r1 = r_sig0 r) by (now injection St). assert (S2 : r_dB r1 = r_dB r) by (now injection St).
  rewrite S1, S2, Hs. unfold lift. unfold outA. destruct (k_convert _ _ _ _ _); reflexivity.
Qed.

(** without caches, the answer depends on the heap only *)
Lemma off_eval J w u q : SimN J w u -> HB (w_heap w) -> adm1 J (w_heap w) q -> snd (step u q) = eval (w_heap w) q.
Proof.
  intros HS Hb Ha. destruct (clear_SimN J w u HS) as [HS' _].
  assert (HS1 : Sim J (fst (clear_geom_cache w)) u).
  { destruct HS as (_ & U & E & _). destruct HS' as (A & _ & _ & D & F). repeat split; auto. }
  pose proof (Sim_bare _ _ _ HS1) as HS2. rewrite (clear_heap w) in HS2.
  destruct (step_sim _ _ _ q HS1 Hb Ha) as [E1 _]. destruct (step_sim _ _ _ q HS2 Hb Ha) as [E2 _].
  unfold eval. congruence.
Qed.
Lemma run_snoc w ps p : fst (run w (ps ++ [p])) = fst (step (fst (run w ps)) p).
Proof. rewrite run_app, run_cons. reflexivity. Qed.
