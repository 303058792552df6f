(** Cache transparency along whole histories of API calls. *)
From Verif Require Export Sim Frame.
Open Scope nat_scope.

(** ** Heap changes that keep cache entries of a cache valid *)
Definition pres (n : cname) (h h' : heap) : Prop :=
  forall k v, fresh h n k = Ok v -> fresh h' n k = Ok v.

Lemma Sim_upd_k J w u h' :
  Sim J w u ->
  (forall n k v, In (k, v) (w_caches w n) -> fresh (w_heap w) n k = Ok v -> fresh h' n k = Ok v) ->
  Sim J (set_heap w h') (set_heap u h').
Proof.
  intros (H1 & H2 & H3 & H4 & H5) H. repeat split; auto.
  intros n k v Hin. simpl in *. eapply H; eauto.
Qed.
Lemma Sim_upd J w u h' :
  Sim J w u -> (forall n, w_caches w n = [] \/ pres n (w_heap w) h') ->
  Sim J (set_heap w h') (set_heap u h').
Proof.
  intros HS H. apply Sim_upd_k; [assumption|]. intros n k v Hin Hf.
  destruct (H n) as [E|E]; [rewrite E in Hin; destruct Hin|]. apply E. assumption.
Qed.

Definition agreeG (r r' : rt1) : Prop :=
  r_V r' = r_V r /\ r_SRF r' = r_SRF r /\ r_mono r' = r_mono r /\ (forall a, r_ang r' a = r_ang r a).
Definition agreeP (r r' : rt1) : Prop := forall p, r_def r' p = r_def r p.
Definition agreeD (r r' : rt1) : Prop :=
  r_V r' = r_V r /\ r_SRF r' = r_SRF r /\ dkeys (r_params r') = dkeys (r_params r).

(** [h'] extends [h]; objects may change but agree as [ag] says *)
Record hle (ag : rt1 -> rt1 -> Prop) (h h' : heap) : Prop := {
  hle_be : h_be h' = h_be h;
  hle_seng : h_seng h' = h_seng h;
  hle_arrs : forall i a, nth_error (h_arrs h) i = Some a -> nth_error (h_arrs h') i = Some a;
  hle_scats : forall i a, nth_error (h_scats h) i = Some a -> nth_error (h_scats h') i = Some a;
  hle_objs : forall i r, nth_error (h_objs h) i = Some r ->
             exists r', nth_error (h_objs h') i = Some r' /\ ag r r'
}.

Ltac inv H := inversion H; subst; clear H.

Lemma rbind_Ok {A B} (m : res A) (f : A -> res B) b :
  rbind m f = Ok b -> exists a, m = Ok a /\ f a = Ok b.
Proof. destruct m; simpl; [intros; eauto|discriminate]. Qed.

Section Mono.
  Variables (ag : rt1 -> rt1 -> Prop) (h h' : heap).
  Hypothesis H : hle ag h h'.

  Lemma mono_obj o r : obj h o = Ok r -> exists r', obj h' o = Ok r' /\ ag r r'.
  Proof.
    unfold obj. destruct (nth_error (h_objs h) o) eqn:E; simpl; [|discriminate].
    intros X; inv X. destruct (hle_objs _ _ _ H _ _ E) as (r' & -> & ?). exists r'. split; [reflexivity|assumption].
  Qed.
  Lemma mono_scat s x : scat_at h s = Ok x -> scat_at h' s = Ok x.
  Proof.
    unfold scat_at. destruct (nth_error (h_scats h) s) eqn:E; simpl; [|discriminate].
    intros X; inv X. now rewrite (hle_scats _ _ _ H _ _ E).
  Qed.
  Lemma mono_deref v x : deref h v = Ok x -> deref h' v = Ok x.
  Proof.
    destruct v as [y|a]; simpl; [auto|]. destruct (nth_error (h_arrs h) a) eqn:E; simpl; [|discriminate].
    intros X; inv X. now rewrite (hle_arrs _ _ _ H _ _ E).
  Qed.
  Lemma mono_stored r r' a x : r_ang r' a = r_ang r a -> stored_ang h r a = Ok x -> stored_ang h' r' a = Ok x.
  Proof.
    intros E. unfold stored_ang. rewrite E. destruct (r_ang r a); [|discriminate].
    intros X. apply rbind_Ok in X. destruct X as (y & Hy & X). rewrite (mono_deref _ _ Hy). exact X.
  Qed.
  Lemma mono_read r r' a x : agreeG r r' -> read_ang h r a = Ok x -> read_ang h' r' a = Ok x.
  Proof.
    intros (_ & _ & Em & Ea). unfold read_ang. rewrite Em.
    destruct a; [|destruct (r_mono r)| |destruct (r_mono r)]; try (apply mono_stored; apply Ea).
    intros X. apply rbind_Ok in X. destruct X as (y & Hy & X).
    rewrite (mono_stored _ _ _ _ (Ea P0) Hy). exact X.
  Qed.
End Mono.

Lemma pres_G n h h' :
  hle agreeG h h' -> match n with CMu0 | CMuEx | CMu0x | CMuExx => True | _ => False end -> pres n h h'.
Proof.
  intros H Hn [o l] v. 
  assert (Hmu : forall a x, h_mu h o a = Ok x -> h_mu h' o a = Ok x).
  { intros a x X. unfold h_mu in *. apply rbind_Ok in X. destruct X as (r & Hr & X).
    apply rbind_Ok in X. destruct X as (t & Ht & X).
    destruct (mono_obj _ _ _ H _ _ Hr) as (r' & Hr' & Hag). rewrite Hr'; cbn [rbind].
    rewrite (mono_read _ _ _ H _ _ _ _ Hag Ht). exact X. }
  assert (Hnm : forall x, h_nmax h o = Ok x -> h_nmax h' o = Ok x).
  { intros x X. unfold h_nmax in *. apply rbind_Ok in X. destruct X as (r & Hr & X).
    apply rbind_Ok in X. destruct X as (sv & Hv & X). apply rbind_Ok in X. destruct X as (ss & Hs & X).
    destruct (mono_obj _ _ _ H _ _ Hr) as (r' & Hr' & (E1 & E2 & _)). rewrite Hr'; cbn [rbind].
    rewrite E1, E2, (mono_scat _ _ _ H _ _ Hv), (mono_scat _ _ _ H _ _ Hs). exact X. }
  assert (Hmx : forall a x, h_mux h o a = Ok x -> h_mux h' o a = Ok x).
  { intros a x X. unfold h_mux in *. apply rbind_Ok in X. destruct X as (nn & Hnn & X).
    apply rbind_Ok in X. destruct X as (m & Hm & X). rewrite (Hnm _ Hnn). cbn [rbind].
    rewrite (Hmu _ _ Hm). exact X. }
  destruct n; try destruct Hn; unfold fresh; cbn [fst snd]; destruct l; try discriminate;
    intros X; apply rbind_Ok in X; destruct X as (a & Ha & X);
    first [rewrite (Hmu _ _ Ha) | rewrite (Hmx _ _ Ha)]; exact X.
Qed.

Lemma pres_P n h h' :
  hle agreeP h h' -> match n with CPSymbs | CPFuncs => True | _ => False end -> pres n h h'.
Proof.
  intros H Hn [o l] v.
  assert (Hsy : forall p x, h_symbs h o p = Ok x -> h_symbs h' o p = Ok x).
  { intros p x X. unfold h_symbs in *. apply rbind_Ok in X. destruct X as (r & Hr & X).
    destruct (mono_obj _ _ _ H _ _ Hr) as (r' & Hr' & Hag). rewrite Hr'; cbn [rbind].
    rewrite Hag. exact X. }
  destruct n; try destruct Hn; unfold fresh; cbn [fst snd]; destruct l as [|s [|]]; try discriminate;
    destruct (pname_of s) as [p|]; try discriminate;
    intros X; apply rbind_Ok in X; destruct X as (a & Ha & X).
  - rewrite (Hsy _ _ Ha). exact X.
  - assert (h_funcs h' o p = Ok a) as ->; [|exact X].
    unfold h_funcs in *. apply rbind_Ok in Ha. destruct Ha as (r & Hr & Ha).
    destruct (mono_obj _ _ _ H _ _ Hr) as (r' & Hr' & Hag). rewrite Hr'; cbn [rbind].
    rewrite Hag, (hle_be _ _ _ H), (hle_seng _ _ _ H).
    destruct (r_def r p); try exact Ha;
      apply rbind_Ok in Ha; destruct Ha as (ss & Hss & Ha); rewrite (Hsy _ _ Hss); exact Ha.
Qed.

Lemma pres_L h h' ag : hle ag h h' -> pres CLambda h h'.
Proof.
  intros H [o l] v. assert (E : forall g, fresh g CLambda (o, l) = rfun (h_lambda g o l))
    by (intros; destruct l; reflexivity).
  rewrite !E. unfold rfun, h_lambda. intros X. apply rbind_Ok in X. destruct X as (c & Hc & X).
  apply rbind_Ok in Hc. destruct Hc as (s & Hs & Hc).
  rewrite (mono_scat _ _ _ H _ _ Hs); cbn [rbind]. rewrite (hle_be _ _ _ H), (hle_seng _ _ _ H), Hc. exact X.
Qed.

Lemma pres_D x h h' : hle agreeD h h' -> pres (dname x) h h'.
Proof.
  intros H [o l] v. destruct l as [|key [|]]; [destruct x; discriminate| |destruct x; discriminate].
  rewrite !fresh_d. unfold rfun, h_dlam. intros X. apply rbind_Ok in X. destruct X as (c & Hc & X).
  apply rbind_Ok in Hc. destruct Hc as (r & Hr & Hc). apply rbind_Ok in Hc. destruct Hc as (s & Hs & Hc).
  destruct (mono_obj _ _ _ H _ _ Hr) as (r' & Hr' & (E1 & E2 & E3)). rewrite Hr'; cbn [rbind].
  assert (Es : scat_id r' x = scat_id r x) by (destruct x; assumption).
  rewrite Es, (mono_scat _ _ _ H _ _ Hs); cbn [rbind].
  destruct (diff key (phase_function s)); [|discriminate].
  rewrite Hr in Hc; cbn [rbind] in *. rewrite E3, (hle_be _ _ _ H), (hle_seng _ _ _ H), Hc. exact X.
Qed.

Definition agree (r r' : rt1) : Prop := agreeG r r' /\ agreeP r r' /\ agreeD r r'.
Lemma hle_weaken (ag ag' : rt1 -> rt1 -> Prop) h h' :
  (forall r r', ag r r' -> ag' r r') -> hle ag h h' -> hle ag' h h'.
Proof.
  intros Hag [A B C D E]. constructor; auto.
  intros i r Hi. destruct (E _ _ Hi) as (r' & ? & ?). eauto.
Qed.
Lemma pres_all n h h' : hle agree h h' -> pres n h h'.
Proof.
  intros H.
  assert (HG : hle agreeG h h') by (eapply hle_weaken; [|exact H]; intros ? ? (? & ? & ?); assumption).
  assert (HP : hle agreeP h h') by (eapply hle_weaken; [|exact H]; intros ? ? (? & ? & ?); assumption).
  assert (HD : hle agreeD h h') by (eapply hle_weaken; [|exact H]; intros ? ? (? & ? & ?); assumption).
  destruct n; try (apply pres_G; [exact HG|exact I]); try (apply pres_P; [exact HP|exact I]).
  - apply (pres_D WV). exact HD.
  - apply (pres_D WSRF). exact HD.
  - eapply pres_L. exact H.
Qed.

(** ** Primitive heap updates *)
Lemma nth_error_list_set {A} (l : list A) i j x :
  nth_error (list_set l i x) j = if (i =? j) && (i <? length l) then Some x else nth_error l j.
Proof.
  revert i j. induction l as [|y l IH]; intros i j; simpl.
  - destruct i, j; simpl; try reflexivity. destruct (i =? j); reflexivity.
  - destruct i, j; simpl; try reflexivity. rewrite IH. reflexivity.
Qed.
Lemma list_set_length {A} (l : list A) i x : length (list_set l i x) = length l.
Proof. revert i. induction l as [|y l IH]; intros [|i]; simpl; auto. Qed.

Lemma obj_nth h o r : obj h o = Ok r <-> nth_error (h_objs h) o = Some r.
Proof. unfold obj. destruct (nth_error (h_objs h) o); simpl; split; congruence. Qed.

Lemma obj_put h o r o' :
  obj (set_objs h (list_set (h_objs h) o r)) o' =
  if (o =? o') && (o <? length (h_objs h)) then Ok r else obj h o'.
Proof.
  unfold obj; simpl. rewrite nth_error_list_set. destruct ((o =? o') && (o <? length (h_objs h))); reflexivity.
Qed.
Lemma obj_put_same h o r0 r : obj h o = Ok r0 -> obj (set_objs h (list_set (h_objs h) o r)) o = Ok r.
Proof.
  intros H. rewrite obj_put. apply obj_nth in H.
  assert (o < length (h_objs h)) by (apply nth_error_Some; congruence).
  rewrite Nat.eqb_refl. apply Nat.ltb_lt in H0. now rewrite H0.
Qed.

Lemma hle_put (ag : rt1 -> rt1 -> Prop) h o r0 r :
  (forall x, ag x x) -> obj h o = Ok r0 -> ag r0 r -> hle ag h (set_objs h (list_set (h_objs h) o r)).
Proof.
  intros Hrefl Hr Hag. constructor; simpl; auto.
  intros i r1 Hi. rewrite nth_error_list_set.
  destruct (Nat.eqb_spec o i); simpl; [|eauto]. subst.
  apply obj_nth in Hr. assert (r1 = r0) by congruence. subst.
  destruct (i <? length (h_objs h)); eauto.
Qed.
Lemma agreeG_refl r : agreeG r r. Proof. repeat split; auto. Qed.
Lemma agreeP_refl r : agreeP r r. Proof. intros p; reflexivity. Qed.
Lemma agreeD_refl r : agreeD r r. Proof. repeat split; auto. Qed.
Lemma agree_refl r : agree r r. Proof. repeat split; auto. Qed.

Lemma Sim_put J w u o r0 r :
  Sim J w u -> obj (w_heap w) o = Ok r0 -> agree r0 r ->
  Sim J (fst (put_obj o r w)) (fst (put_obj o r u)).
Proof.
  intros HS Hr Hag. pose proof HS as (_ & _ & E & _ & _). simpl. rewrite <- E. apply Sim_upd; [assumption|].
  intros n. right. apply pres_all. eapply hle_put; eauto using agree_refl.
Qed.

(** a computation whose only heap effect is to update object [o] with agreeing records *)
Lemma sim_upd_obj J o (f : rt1 -> rt1) :
  (forall r, agree r (f r)) -> simM J (do r <- get_obj o ;; put_obj o (f r)).
Proof.
  intros Hf. apply sim_get_obj_bind. intros w u r HS Hr. split; [reflexivity|].
  eapply Sim_put; eauto.
Qed.

Ltac agr := repeat split; intros; reflexivity.

Lemma sim_m_fn J o : simM J (m_fn o).
Proof.
  unfold m_fn. apply sim_get_obj_bind. intros w u r HS Hr.
  destruct (r_fn r) as [f|]; [split; [reflexivity|assumption]|].
  destruct (r_fn_input r) as [f|]; [split; [reflexivity|assumption]|].
  destruct (r_intQ r); [|split; [reflexivity|assumption]].
  unfold bind, gets. pose proof HS as (_ & _ & E & _ & _). rewrite <- E.
  match goal with |- context [match ?x with Ok _ => _ | Err _ => _ end] => destruct x as [f|e] end;
    [|split; [reflexivity|assumption]].
  simpl. split; [reflexivity|].
  eapply (Sim_put J w u o r (with_fn r (Some f))); eauto. agr.
Qed.
#[export] Hint Resolve sim_m_fn : sim.

Lemma sim_m_fnevals J o : simM J (m_fnevals o).
Proof.
  unfold m_fnevals. apply sim_bind; [simgo|intros r].
  destruct (r_fnev r); [simgo|]. destruct (r_fnevals_input r); [simgo|]. destruct (r_intQ r); [|simgo].
  apply sim_bind; [simgo|intros [es|]; [|simgo]]. apply sim_bind; [simgo|intros c].
  apply sim_get_obj_bind. intros w u r' HS Hr. split; [reflexivity|].
  eapply (Sim_put J w u o r' (with_fnev r' (Some c))); eauto. agr.
Qed.
#[export] Hint Resolve sim_m_fnevals : sim.
Lemma sim_m_Fint J o b : simM J (m_Fint o b). Proof. unfold m_Fint. simgo. Qed.
#[export] Hint Resolve sim_m_Fint : sim.
Lemma sim_interaction J o : simM J (m_interaction o). Proof. unfold m_interaction. simgo. Qed.
#[export] Hint Resolve sim_interaction : sim.
Lemma sim_calc_body J o : simM J (m_calc_body o).
Proof. unfold m_calc_body. simgo. Qed.
#[export] Hint Resolve sim_calc_body : sim.

(** ** Updates of cached inputs, after the corresponding caches have been cleared *)
Definition Empty (E : cname -> bool) (w : world) : Prop := forall n, E n = true -> w_caches w n = [].
Definition simE {A} (E : cname -> bool) (J : list nat) (m : M A) : Prop :=
  forall w u, Sim J w u -> Empty E w ->
    snd (m w) = snd (m u) /\ Sim J (fst (m w)) (fst (m u)) /\ Empty E (fst (m w)).
Definition is_G (n : cname) : bool := match n with CMu0 | CMu0x | CMuEx | CMuExx => true | _ => false end.
Definition is_P (n : cname) : bool := match n with CPSymbs | CPFuncs => true | _ => false end.

Lemma simE_ret {A} E J (a : A) : simE E J (ret a).
Proof. intros w u H HE. auto. Qed.
Lemma simE_fail {A} E J e : simE E J (@fail A e).
Proof. intros w u H HE. auto. Qed.
Lemma simE_bind {A B} E J (m : M A) (k : A -> M B) :
  simE E J m -> (forall a, simE E J (k a)) -> simE E J (bind m k).
Proof.
  intros Hm Hk w u H HE. unfold bind. destruct (Hm w u H HE) as (He & Hs & HE').
  destruct (m w) as [w' r], (m u) as [u' r']; simpl in *. subst r'.
  destruct r as [a|e]; [apply Hk; assumption|]. auto.
Qed.
Lemma simE_get_obj_bind {B} E J o (k : rt1 -> M B) :
  (forall w u r, Sim J w u -> Empty E w -> obj (w_heap w) o = Ok r ->
     snd (k r w) = snd (k r u) /\ Sim J (fst (k r w)) (fst (k r u)) /\ Empty E (fst (k r w))) ->
  simE E J (bind (get_obj o) k).
Proof.
  intros Hk w u H HE. unfold bind, get_obj, gets.
  pose proof H as (H1 & H2 & H3 & H4 & H5).
  rewrite <- H3. destruct (obj (w_heap w) o) as [r|e] eqn:Eo; [apply Hk; assumption|auto].
Qed.
Lemma sim_of_simE {A} E J (m : M A) w u : simE E J m -> Sim J w u -> Empty E w ->
  snd (m w) = snd (m u) /\ Sim J (fst (m w)) (fst (m u)).
Proof. intros Hm H HE. destruct (Hm w u H HE) as (? & ? & ?). auto. Qed.

Lemma SimG_put J w u o r0 r :
  Sim J w u -> Empty is_G w -> obj (w_heap w) o = Ok r0 -> agreeP r0 r -> agreeD r0 r ->
  Sim J (fst (put_obj o r w)) (fst (put_obj o r u)) /\ Empty is_G (fst (put_obj o r w)).
Proof.
  intros HS HE Hr HP HD. split; [|exact HE].
  pose proof HS as (_ & _ & E & _ & _). simpl. rewrite <- E. apply Sim_upd; [assumption|].
  intros n. destruct (is_G n) eqn:En; [left; now apply HE|]. right.
  destruct n; try discriminate En.
  - apply pres_P; [|exact I]. eapply hle_put; eauto using agreeP_refl.
  - apply pres_P; [|exact I]. eapply hle_put; eauto using agreeP_refl.
  - apply (pres_D WV). eapply hle_put; eauto using agreeD_refl.
  - apply (pres_D WSRF). eapply hle_put; eauto using agreeD_refl.
  - apply (pres_L _ _ agreeD). eapply hle_put; eauto using agreeD_refl.
Qed.
Lemma SimP_put J w u o r0 r :
  Sim J w u -> Empty is_P w -> obj (w_heap w) o = Ok r0 -> agreeG r0 r -> agreeD r0 r ->
  Sim J (fst (put_obj o r w)) (fst (put_obj o r u)).
Proof.
  intros HS HE Hr HP HD.
  pose proof HS as (_ & _ & E & _ & _). simpl. rewrite <- E. apply Sim_upd; [assumption|].
  intros n. destruct (is_P n) eqn:En; [left; now apply HE|]. right.
  destruct n; try discriminate En; try (apply pres_G; [|exact I]; eapply hle_put; eauto using agreeG_refl).
  - apply (pres_D WV). eapply hle_put; eauto using agreeD_refl.
  - apply (pres_D WSRF). eapply hle_put; eauto using agreeD_refl.
  - apply (pres_L _ _ agreeD). eapply hle_put; eauto using agreeD_refl.
Qed.

Lemma clear_geom_Sim J w u : Sim J w u ->
  Sim J (fst (clear_geom_cache w)) (fst (clear_geom_cache u)) /\ Empty is_G (fst (clear_geom_cache w))
  /\ snd (clear_geom_cache w) = Ok tt /\ snd (clear_geom_cache u) = Ok tt.
Proof.
  intros H. assert (simM J clear_geom_cache) as Hs by (unfold clear_geom_cache; simgo).
  destruct (Hs w u H) as [? ?]. split; [assumption|]. split; [|split; reflexivity].
  intros n Hn. destruct n; try discriminate Hn; reflexivity.
Qed.
Lemma clear_param_Sim J w u : Sim J w u ->
  Sim J (fst (clear_param_cache w)) (fst (clear_param_cache u)) /\ Empty is_P (fst (clear_param_cache w)).
Proof.
  intros H. assert (simM J clear_param_cache) as Hs by (unfold clear_param_cache; simgo).
  destruct (Hs w u H) as [? ?]. split; try assumption.
  intros n Hn. destruct n; try discriminate Hn; reflexivity.
Qed.

Lemma sim_clear_geom_then {A} J (m : M A) : simE is_G J m -> simM J (clear_geom_cache ;;; m).
Proof.
  intros Hm w u H. destruct (clear_geom_Sim J w u H) as (HS & HE & E1 & E2).
  change ((clear_geom_cache ;;; m) w) with (m (fst (clear_geom_cache w))).
  change ((clear_geom_cache ;;; m) u) with (m (fst (clear_geom_cache u))).
  eapply sim_of_simE; eassumption.
Qed.

Lemma simE_put J o f : (forall r, agreeP r (f r) /\ agreeD r (f r)) ->
  simE is_G J (do r <- get_obj o ;; put_obj o (f r)).
Proof.
  intros Hf. apply simE_get_obj_bind. intros w u r HS HE Hr. destruct (Hf r).
  destruct (SimG_put J w u o r (f r) HS HE Hr) as [? ?]; auto.
Qed.

Lemma sim_set_geometry_loop J o kw : simE is_G J (set_geometry_loop o kw).
Proof.
  induction kw as [|[a v] kw IH]; [apply simE_ret|]. cbn [set_geometry_loop].
  apply simE_get_obj_bind. intros w u r HS HE Hr.
  destruct (existsb (angle_eqb a) (r_fixed r)); [auto|].
  destruct v as [x|]; [|auto]. unfold bind.
  destruct (SimG_put J w u o r (with_ang r a x) HS HE Hr) as [HS' HE']; [agr|agr|].
  simpl in *. apply IH; assumption.
Qed.
Lemma sim_set_geometry J o kw : simM J (set_geometry o kw).
Proof.
  unfold set_geometry. destruct (rmap _ kw) as [akw|e]; [|apply sim_fail].
  apply sim_bind; [simgo|intros r]. destruct (_ && _); [simgo|].
  apply sim_clear_geom_then. apply sim_set_geometry_loop.
Qed.

(** the order of put_obj and clearing the caches does not matter *)
Lemma put_clear {A} o r (m : M A) w :
  (put_obj o r ;;; clear_geom_cache ;;; m) w = (clear_geom_cache ;;; put_obj o r ;;; m) w.
Proof. reflexivity. Qed.

Lemma clear_then {A} (m : M A) w : (clear_geom_cache ;;; m) w = m (fst (clear_geom_cache w)).
Proof. reflexivity. Qed.
Lemma clear_heap w : w_heap (fst (clear_geom_cache w)) = w_heap w. Proof. reflexivity. Qed.

Lemma simE_put_then {A} J o f (k : rt1 -> M A) : (forall r, agreeP r (f r) /\ agreeD r (f r)) ->
  (forall r, simE is_G J (k r)) ->
  simE is_G J (do r <- get_obj o ;; put_obj o (f r) ;;; k r).
Proof.
  intros Hf Hk. apply simE_get_obj_bind. intros w u r HS HE Hr. destruct (Hf r).
  destruct (SimG_put J w u o r (f r) HS HE Hr) as [HS' HE']; auto.
  unfold bind. simpl in *. apply Hk; assumption.
Qed.

(** rewriting the record just written *)
Lemma put_put o r1 r2 w : o < length (h_objs (w_heap w)) ->
  fst (put_obj o r2 (fst (put_obj o r1 w))) = fst (put_obj o r2 w).
Proof.
  intros H. unfold put_obj, set_heap, set_objs; simpl. do 2 f_equal.
  revert o H. generalize (h_objs (w_heap w)). induction l as [|x l IH]; intros [|o] H; simpl in *; auto; try lia.
  f_equal. apply IH. lia.
Qed.

Lemma bind_put {A} o r (k : unit -> M A) w : bind (put_obj o r) k w = k tt (fst (put_obj o r w)).
Proof. reflexivity. Qed.
Lemma bind_get {A} o r (k : rt1 -> M A) w : obj (w_heap w) o = Ok r -> bind (get_obj o) k w = k r w.
Proof. intros H. unfold bind, get_obj, gets. now rewrite H. Qed.
Lemma put_obj_obj o r0 r w : obj (w_heap w) o = Ok r0 -> obj (w_heap (fst (put_obj o r w))) o = Ok r.
Proof. intros H. simpl. eapply obj_put_same; eassumption. Qed.

Lemma sim_set_monostatic J o p : simM J (set_monostatic o p).
Proof.
  unfold set_monostatic. apply sim_get_obj_bind. intros w u r HS Hr. rewrite !put_clear, !clear_then.
  destruct (clear_geom_Sim J w u HS) as (HS1 & HE1 & _ & _). rewrite <- (clear_heap w) in Hr.
  clear HS. revert HS1 HE1 Hr.
  generalize (fst (clear_geom_cache w)) as w1, (fst (clear_geom_cache u)) as u1. clear w u.
  intros w u HS HE Hr.
  destruct (SimG_put J w u o r (with_mode r true) HS HE Hr) as [HS' HE']; [agr|agr|].
  rewrite !bind_put. eapply sim_of_simE; [|eassumption|eassumption].
  apply simE_get_obj_bind. clear. intros w u r HS HE Hr. rewrite !bind_put.
  set (r' := with_fnev _ _).
  destruct (SimG_put J w u o r r' HS HE Hr) as [HS' HE']; [agr|agr|].
  apply (put_obj_obj o r r' w) in Hr. revert HS' HE' Hr.
  generalize (fst (put_obj o r' w)) as w1, (fst (put_obj o r' u)) as u1.
  clear w u HS HE. intros w u HS HE Hr.
  destruct p as [[q|]|]; [| |].
  - split; [reflexivity|]. eapply SimG_put; eauto; agr.
  - split; [reflexivity|]. split; assumption.
  - split; [reflexivity|]. eapply SimG_put; eauto; agr.
Qed.

Lemma simE_bistatic_step J o a v : simE is_G J (bistatic_step o a v).
Proof.
  unfold bistatic_step. destruct v as [[q|]|]; [|apply simE_fail|apply simE_ret].
  apply simE_get_obj_bind. intros w u r HS HE Hr. rewrite !bind_put.
  destruct (SimG_put J w u o r (with_fixed (with_ang r a (PNum (Fin (Q2R q)))) (a :: r_fixed (with_ang r a (PNum (Fin (Q2R q)))))) HS HE Hr)
    as [HS' HE']; [agr|agr|]. split; [reflexivity|]. split; assumption.
Qed.

Lemma sim_set_bistatic J o a b c d : simM J (set_bistatic o a b c d).
Proof.
  unfold set_bistatic. apply sim_get_obj_bind. intros w u r HS Hr. rewrite !put_clear, !clear_then.
  destruct (clear_geom_Sim J w u HS) as (HS1 & HE1 & _ & _). rewrite <- (clear_heap w) in Hr.
  clear HS. revert HS1 HE1 Hr.
  generalize (fst (clear_geom_cache w)) as w1, (fst (clear_geom_cache u)) as u1. clear w u.
  intros w u HS HE Hr.
  destruct (SimG_put J w u o r (with_mode r false) HS HE Hr) as [HS' HE']; [agr|agr|].
  rewrite !bind_put. eapply sim_of_simE; [|eassumption|eassumption]. clear.
  apply (simE_put_then J o (fun r => with_fnev (with_fn (with_fixed r []) None) None)); [intros; split; agr|intros _].
  do 4 (apply simE_bind; [apply simE_bistatic_step|intros]).
  apply simE_put. intros; split; agr.
Qed.

Lemma sim_set_def J o p d : simM J (set_def o p d).
Proof.
  intros w u HS. destruct (clear_param_Sim J w u HS) as (HS1 & HE1).
  unfold set_def.
  change ((clear_param_cache ;;; (do r <- get_obj o ;; put_obj o (with_def r p d))) w)
    with ((do r <- get_obj o ;; put_obj o (with_def r p d)) (fst (clear_param_cache w))).
  change ((clear_param_cache ;;; (do r <- get_obj o ;; put_obj o (with_def r p d))) u)
    with ((do r <- get_obj o ;; put_obj o (with_def r p d)) (fst (clear_param_cache u))).
  revert HS1 HE1. generalize (fst (clear_param_cache w)) as w1, (fst (clear_param_cache u)) as u1.
  clear. intros w u HS HE. unfold bind, get_obj, gets. pose proof HS as (_ & _ & E & _ & _). rewrite <- E.
  destruct (obj (w_heap w) o) as [r|e] eqn:Hr; [|split; [reflexivity|assumption]].
  split; [reflexivity|]. eapply SimP_put; eauto; agr.
Qed.

(** ** Allocation *)
Lemma nth_error_app_l {A} (l l' : list A) i x : nth_error l i = Some x -> nth_error (l ++ l') i = Some x.
Proof. intros H. rewrite nth_error_app1; [assumption|]. apply nth_error_Some. congruence. Qed.

Lemma sim_add_arr J a : simM J (add_arr a).
Proof.
  intros w u HS. pose proof HS as (_ & _ & E & _ & _). simpl. rewrite <- E. split; [reflexivity|].
  apply Sim_upd; [assumption|]. intros n. right. apply pres_all.
  constructor; simpl; eauto using nth_error_app_l, agree_refl.
Qed.
Lemma sim_add_scat J a : simM J (add_scat a).
Proof.
  intros w u HS. pose proof HS as (_ & _ & E & _ & _). simpl. rewrite <- E. split; [reflexivity|].
  apply Sim_upd; [assumption|]. intros n. right. apply pres_all.
  constructor; simpl; eauto using nth_error_app_l, agree_refl.
Qed.
Lemma sim_add_obj J r : simM J (add_obj r).
Proof.
  intros w u HS. pose proof HS as (_ & _ & E & _ & _). simpl. rewrite <- E. split; [reflexivity|].
  apply Sim_upd; [assumption|]. intros n. right. apply pres_all.
  constructor; simpl; eauto using nth_error_app_l, agree_refl.
Qed.
#[export] Hint Resolve sim_add_arr sim_add_scat sim_add_obj sim_set_geometry sim_set_monostatic
  sim_set_bistatic sim_set_def : sim.
Lemma sim_new J V S a b c d e f : simM J (new_rt1 V S a b c d e f).
Proof. unfold new_rt1. simgo. Qed.
Lemma sim_copy_val J v : simM J (copy_val v). Proof. unfold copy_val. simgo. Qed.
#[export] Hint Resolve sim_copy_val : sim.
Lemma sim_copy_sval J v : simM J (copy_sval v). Proof. unfold copy_sval. simgo. Qed.
Lemma sim_copy_opt J v : simM J (copy_opt v). Proof. unfold copy_opt. simgo. Qed.
Lemma sim_copy_def J v : simM J (copy_def v). Proof. unfold copy_def. simgo. Qed.
#[export] Hint Resolve sim_copy_sval sim_copy_opt sim_copy_def : sim.
Lemma sim_copy_params J d : simM J (copy_params d).
Proof. induction d as [|[k v] d IH]; simpl; simgo. Qed.
Lemma sim_getstate J o : simM J (getstate o).
Proof. apply (sim_upd_obj J o (fun r => with_plots r false)). intros; agr. Qed.
#[export] Hint Resolve sim_copy_params sim_getstate : sim.
Lemma sim_pickle J o : simM J (pickle_copy o).
Proof. unfold pickle_copy. simgo. Qed.
Lemma sim_analyze J o : simM J (analyze_callable o).
Proof. unfold analyze_callable. simgo. Qed.

(** ** Parameter updates *)
Lemma dkeys_dset_in {A} (d : dict A) k v : In k (dkeys d) -> dkeys (dset d k v) = dkeys d.
Proof. intros H. rewrite dkeys_dset. apply mem_In in H. now rewrite H. Qed.
Lemma dkeys_dupdate_in {A} (d kw : dict A) : incl (dkeys kw) (dkeys d) -> dkeys (dupdate d kw) = dkeys d.
Proof.
  unfold dupdate. revert d. induction kw as [|[k v] kw IH]; intros d H; simpl; [reflexivity|].
  assert (Hk : In k (dkeys d)) by (apply H; now left).
  rewrite IH; [now apply dkeys_dset_in|].
  rewrite dkeys_dset_in by assumption. intros x Hx. apply H. now right.
Qed.

(** the record after update_params *)
Definition upd_kw (r : rt1) (kw : dict pyval) : dict pyval :=
  match r_def r Bsf with
  | DStr (ESym s) =>
      if String.eqb s "bsf" && negb (mem "bsf" (dkeys (r_params r))) && negb (mem "bsf" (dkeys kw))
      then kw ++ [("bsf"%string, PNum (Fin 0%R))] else kw
  | _ => kw
  end.
Definition upd_rec (r : rt1) (kw : dict pyval) : rt1 :=
  with_params r (dupdate (r_params r) (map (fun kv => (fst kv, S1d (snd kv))) (upd_kw r kw))).
Lemma update_params_eq o kw w :
  update_params o kw w = (do r <- get_obj o ;; put_obj o (upd_rec r kw)) w.
Proof. reflexivity. Qed.

Lemma upd_kw_bsf r kw : In "bsf"%string (dkeys (r_params r)) -> upd_kw r kw = kw.
Proof.
  intros H. unfold upd_kw. apply mem_In in H. rewrite H.
  destruct (r_def r Bsf) as [[]| |]; try reflexivity.
  rewrite andb_false_r. reflexivity.
Qed.
Lemma dkeys_map {A B} (f : A -> B) (d : dict A) : dkeys (map (fun kv => (fst kv, f (snd kv))) d) = dkeys d.
Proof. unfold dkeys. rewrite map_map. reflexivity. Qed.

Definition adds_no_name (h : heap) (o : nat) (kw : dict pyval) : Prop :=
  forall r, obj h o = Ok r -> incl (dkeys kw) (dkeys (r_params r)).
Definition HB (h : heap) : Prop :=
  forall o r, obj h o = Ok r -> In "bsf"%string (dkeys (r_params r)).

Definition simAt {A} (J : list nat) (m : M A) (w u : world) : Prop :=
  snd (m w) = snd (m u) /\ Sim J (fst (m w)) (fst (m u)).

Lemma simAt_bind {A B} J (m : M A) (k : A -> M B) w u :
  simAt J m w u -> (forall a, simM J (k a)) -> simAt J (bind m k) w u.
Proof.
  intros [He Hs] Hk. unfold simAt, bind.
  destruct (m w) as [w' r], (m u) as [u' r']; simpl in *. subst r'.
  destruct r as [a|e]; [apply Hk; assumption|]. auto.
Qed.
Lemma simAt_catch {A} J (m : M A) (k : exn -> M A) w u :
  simAt J m w u -> (forall a, simM J (k a)) -> simAt J (catch m k) w u.
Proof.
  intros [He Hs] Hk. unfold simAt, catch.
  destruct (m w) as [w' r], (m u) as [u' r']; simpl in *. subst r'.
  destruct r as [a|e]; [auto|]. apply Hk; assumption.
Qed.

Lemma sim_update J o kw w u :
  Sim J w u -> HB (w_heap w) -> (In o J -> adds_no_name (w_heap w) o kw) -> simAt J (update_params o kw) w u.
Proof.
  intros HS HBw HJ. unfold simAt. rewrite !update_params_eq.
  pose proof HS as (H1 & H2 & E & H4 & H5).
  unfold bind, get_obj, gets. rewrite <- E.
  destruct (obj (w_heap w) o) as [r|e] eqn:Hr; [|split; [reflexivity|assumption]].
  split; [reflexivity|]. simpl. rewrite <- E. apply Sim_upd_k; [assumption|].
  intros n k v Hin Hf. set (h' := set_objs _ _).
  destruct (is_D n) eqn:Hn.
  - assert (exists x, n = dname x) as [x ->] by (destruct n; try discriminate; [exists WV|exists WSRF]; reflexivity).
    pose proof (H5 _ _ _ Hn Hin) as HkJ. destruct k as [o' l]; simpl in HkJ.
    assert (Hk : exists key, l = [key]).
    { destruct l as [|key [|]]; [destruct x; discriminate|eauto|destruct x; discriminate]. }
    destruct Hk as [key ->]. rewrite fresh_d in *.
    destruct (Nat.eq_dec o' o) as [->|Hne].
    + assert (hle agreeD (w_heap w) h') as Hle.
      { eapply hle_put; eauto using agreeD_refl. unfold upd_rec; simpl.
        repeat split; simpl. rewrite upd_kw_bsf by (eapply HBw; eassumption).
        apply dkeys_dupdate_in. rewrite dkeys_map. apply (HJ HkJ). assumption. }
      rewrite <- fresh_d in *. exact (pres_D x _ _ Hle _ _ Hf).
    + assert (Eo : obj h' o' = obj (w_heap w) o').
      { unfold h'. rewrite obj_put. destruct (Nat.eqb_spec o o'); [congruence|reflexivity]. }
      unfold rfun, h_dlam in *. rewrite Eo. exact Hf.
  - revert Hf. generalize k, v.
    destruct n; try discriminate Hn;
    try (apply pres_G; [|exact I]; eapply hle_put; eauto using agreeG_refl; agr);
    try (apply pres_P; [|exact I]; eapply hle_put; eauto using agreeP_refl; agr).
    apply (pres_L _ _ agreeP). eapply hle_put; eauto using agreeP_refl; agr.
Qed.

Lemma sim_calc J o kw w u :
  Sim J w u -> HB (w_heap w) -> (In o J -> adds_no_name (w_heap w) o kw) -> simAt J (m_calc o kw) w u.
Proof.
  intros HS HBw HJ. unfold m_calc. apply simAt_catch.
  - apply simAt_bind; [now apply sim_update|intros; simgo].
  - intros e. destruct e; simgo.
Qed.
Lemma sim_api_surface J o kw w u :
  Sim J w u -> HB (w_heap w) -> (In o J -> adds_no_name (w_heap w) o kw) -> simAt J (api_surface o kw) w u.
Proof. intros. unfold api_surface. apply simAt_bind; [now apply sim_update|simgo]. Qed.
Lemma sim_api_volume J o kw w u :
  Sim J w u -> HB (w_heap w) -> (In o J -> adds_no_name (w_heap w) o kw) -> simAt J (api_volume o kw) w u.
Proof. intros. unfold api_volume. apply simAt_bind; [now apply sim_update|simgo]. Qed.
Lemma sim_api_interaction J o kw w u :
  Sim J w u -> HB (w_heap w) -> (In o J -> adds_no_name (w_heap w) o kw) -> simAt J (api_interaction o kw) w u.
Proof. intros. unfold api_interaction. apply simAt_bind; [now apply sim_update|simgo]. Qed.

(** ** Exchanging V or SRF for one with the same number of coefficients *)
Definition nc_at (h : heap) (s : nat) : res nat := let* v := scat_at h s in ncoefs v.

Lemma nmax_alt h o n :
  h_nmax h o = Ok n <->
  exists r a b, obj h o = Ok r /\ nc_at h (r_V r) = Ok a /\ nc_at h (r_SRF r) = Ok b /\ n = a + b - 1.
Proof.
  unfold h_nmax, nc_at. split.
  - intros X. apply rbind_Ok in X. destruct X as (r & Hr & X). apply rbind_Ok in X. destruct X as (v & Hv & X).
    apply rbind_Ok in X. destruct X as (s & Hs & X). apply rbind_Ok in X. destruct X as (a & Ha & X).
    apply rbind_Ok in X. destruct X as (b & Hb & X). inv X.
    exists r, a, b. rewrite Hv, Hs. auto.
  - intros (r & a & b & Hr & Ha & Hb & ->). rewrite Hr. cbn [rbind].
    apply rbind_Ok in Ha. destruct Ha as (v & Hv & Ha). apply rbind_Ok in Hb. destruct Hb as (s & Hs & Hb).
    rewrite Hv, Hs. cbn [rbind]. rewrite Ha, Hb. reflexivity.
Qed.

Definition agreeA (r r' : rt1) : Prop := r_mono r' = r_mono r /\ (forall a, r_ang r' a = r_ang r a).
Lemma sim_swap J o w u r r' :
  Sim J w u -> ~ In o J -> obj (w_heap w) o = Ok r -> agreeA r r' -> agreeP r r' ->
  (forall n, nc_at (w_heap w) (r_V r) = Ok n -> nc_at (w_heap w) (r_V r') = Ok n) ->
  (forall n, nc_at (w_heap w) (r_SRF r) = Ok n -> nc_at (w_heap w) (r_SRF r') = Ok n) ->
  Sim J (fst (put_obj o r' w)) (fst (put_obj o r' u)).
Proof.
  intros HS HJ Hr HA HP HV HSR. pose proof HS as (H1 & H2 & E & H4 & H5).
  simpl. rewrite <- E. apply Sim_upd_k; [assumption|].
  intros n k v Hin Hf. set (h' := set_objs _ _).
  assert (Eo : forall o', o' <> o -> obj h' o' = obj (w_heap w) o').
  { intros o' Hne. unfold h'. rewrite obj_put. destruct (Nat.eqb_spec o o'); [congruence|reflexivity]. }
  assert (Eo' : obj h' o = Ok r') by (unfold h'; eapply obj_put_same; eassumption).
  destruct k as [o' l].
  assert (Hrd : forall q q' a x, agreeA q q' -> read_ang (w_heap w) q a = Ok x -> read_ang h' q' a = Ok x).
  { intros q q' a x (Em & Ea). unfold read_ang, stored_ang. rewrite Em, !Ea. exact (fun X => X). }
  assert (Hmu : forall a x, h_mu (w_heap w) o' a = Ok x -> h_mu h' o' a = Ok x).
  { intros a x X. unfold h_mu in *. destruct (Nat.eq_dec o' o) as [->|Hne].
    - rewrite Hr in X. rewrite Eo'. cbn [rbind] in *. apply rbind_Ok in X. destruct X as (t & Ht & X).
      rewrite (Hrd _ _ _ _ HA Ht). exact X.
    - rewrite (Eo _ Hne). exact X. }
  assert (Hnm : forall x, h_nmax (w_heap w) o' = Ok x -> h_nmax h' o' = Ok x).
  { intros x X. destruct (Nat.eq_dec o' o) as [->|Hne].
    - apply nmax_alt in X. destruct X as (q & a & b & Hq & Ha & Hb & ->). rewrite Hr in Hq. inv Hq.
      apply nmax_alt. exists r', a, b. repeat split; auto.
    - unfold h_nmax in *. rewrite (Eo _ Hne). exact X. }
  assert (Hmx : forall a x, h_mux (w_heap w) o' a = Ok x -> h_mux h' o' a = Ok x).
  { intros a x X. unfold h_mux in *. apply rbind_Ok in X. destruct X as (nn & Hnn & X).
    apply rbind_Ok in X. destruct X as (m & Hm & X). rewrite (Hnm _ Hnn). cbn [rbind].
    rewrite (Hmu _ _ Hm). exact X. }
  destruct (is_D n) eqn:Hn.
  - assert (exists x, n = dname x) as [x ->] by (destruct n; try discriminate; [exists WV|exists WSRF]; reflexivity).
    pose proof (H5 _ _ _ Hn Hin) as HkJ. simpl in HkJ.
    assert (Hne : o' <> o) by congruence.
    destruct l as [|key [|]]; [destruct x; discriminate| |destruct x; discriminate].
    rewrite fresh_d in *. unfold rfun, h_dlam in *. rewrite (Eo _ Hne). exact Hf.
  - destruct n; try discriminate Hn.
    1-4: unfold fresh in *; cbn [fst snd] in *; destruct l; try discriminate;
         apply rbind_Ok in Hf; destruct Hf as (a & Ha & Hf);
         first [rewrite (Hmu _ _ Ha) | rewrite (Hmx _ _ Ha)]; exact Hf.
    1-2: revert Hf; apply pres_P; [|exact I]; eapply hle_put; eauto using agreeP_refl.
    revert Hf; apply (pres_L _ _ agreeP). eapply hle_put; eauto using agreeP_refl.
Qed.

(** ** In-place writes to arrays that are not used as zenith angles *)
Lemma sim_mutate J aid f w u :
  Sim J w u ->
  (forall o r, obj (w_heap w) o = Ok r -> r_ang r T0 <> Some (PArr aid) /\ r_ang r TEx <> Some (PArr aid)) ->
  simAt J (mutate aid f) w u.
Proof.
  intros HS HA. pose proof HS as (H1 & H2 & E & H4 & H5). unfold simAt, mutate. rewrite <- E.
  destruct (nth_error (h_arrs (w_heap w)) aid) as [a0|] eqn:Ea; [|split; [reflexivity|assumption]].
  split; [reflexivity|]. cbn [fst]. apply Sim_upd; [assumption|]. intros n. right.
  set (h' := mk_heap _ _ _ _ _).
  assert (Hst : forall o r a x, obj (w_heap w) o = Ok r -> a = T0 \/ a = TEx ->
             stored_ang (w_heap w) r a = Ok x -> stored_ang h' r a = Ok x).
  { intros o r a x Hr Ha X. unfold stored_ang in *. destruct (r_ang r a) as [v|] eqn:Ev; [|exact X].
    apply rbind_Ok in X. destruct X as (y & Hy & X). assert (deref h' v = Ok y) as ->; [|exact X].
    destruct v as [z|i]; [exact Hy|]. simpl in *. rewrite nth_error_list_set.
    destruct (Nat.eqb_spec aid i) as [->|]; [|exact Hy].
    exfalso. destruct (HA _ _ Hr). destruct Ha; subst; congruence. }
  intros [o l] v.
  assert (Hmu : forall a x, a = T0 \/ a = TEx -> h_mu (w_heap w) o a = Ok x -> h_mu h' o a = Ok x).
  { intros a x Ha X. unfold h_mu in *. apply rbind_Ok in X. destruct X as (r & Hr & X).
    change (obj h' o) with (obj (w_heap w) o). rewrite Hr. cbn [rbind].
    apply rbind_Ok in X. destruct X as (t & Ht & X).
    assert (read_ang h' r a = Ok t) as ->; [|exact X].
    destruct Ha; subst; unfold read_ang in *; [eapply Hst; eauto|].
    destruct (r_mono r); eapply Hst; eauto. }
  assert (Hmx : forall a x, a = T0 \/ a = TEx -> h_mux (w_heap w) o a = Ok x -> h_mux h' o a = Ok x).
  { intros a x Ha X. unfold h_mux in *. apply rbind_Ok in X. destruct X as (nn & Hnn & X).
    apply rbind_Ok in X. destruct X as (m & Hm & X).
    change (h_nmax h' o) with (h_nmax (w_heap w) o). rewrite Hnn. cbn [rbind].
    rewrite (Hmu _ _ Ha Hm). exact X. }
  destruct n; try exact (fun X => X);
    unfold fresh; cbn [fst snd]; destruct l; try discriminate;
    intros Hf; apply rbind_Ok in Hf; destruct Hf as (a & Ha & Hf);
    first [rewrite (Hmu _ _ (or_introl eq_refl) Ha) | rewrite (Hmu _ _ (or_intror eq_refl) Ha)
          | rewrite (Hmx _ _ (or_introl eq_refl) Ha) | rewrite (Hmx _ _ (or_intror eq_refl) Ha)]; exact Hf.
Qed.

(** ** bsf is always in param_dict *)
Definition keepHB {A} (m : M A) : Prop := forall w, HB (w_heap w) -> HB (w_heap (fst (m w))).
Lemma HB_hstrip h h' : hstrip h' = hstrip h -> HB h -> HB h'.
Proof.
  intros E H o r Hr. apply obj_nth in Hr.
  assert (Ho : map strip (h_objs h') = map strip (h_objs h)) by (injection E; auto).
  assert (Hn : nth_error (map strip (h_objs h)) o = Some (strip r)).
  { rewrite <- Ho. now apply map_nth_error. }
  destruct (nth_error (h_objs h) o) as [r0|] eqn:E0.
  - rewrite (map_nth_error strip _ _ E0) in Hn. apply obj_nth in E0. specialize (H _ _ E0).
    assert (Hs : strip r0 = strip r) by congruence.
    change (r_params r) with (r_params (strip r)). rewrite <- Hs. exact H.
  - apply nth_error_None in E0. assert (o < length (map strip (h_objs h))) by (apply nth_error_Some; congruence).
    rewrite map_length in H0. lia.
Qed.
Lemma kh_frame {A} (m : M A) : frame m -> keepHB m.
Proof. intros Hf w H. eapply HB_hstrip; [apply Hf|assumption]. Qed.
Lemma kh_bind {A B} (m : M A) (k : A -> M B) : keepHB m -> (forall a, keepHB (k a)) -> keepHB (bind m k).
Proof.
  intros Hm Hk w H. unfold bind. specialize (Hm w H). destruct (m w) as [w' [a|e]]; simpl in *; auto.
  apply Hk; assumption.
Qed.
Lemma kh_catch {A} (m : M A) (k : exn -> M A) : keepHB m -> (forall a, keepHB (k a)) -> keepHB (catch m k).
Proof.
  intros Hm Hk w H. unfold catch. specialize (Hm w H). destruct (m w) as [w' [a|e]]; simpl in *; auto.
  apply Hk; assumption.
Qed.
Lemma HB_put h o r : HB h -> In "bsf"%string (dkeys (r_params r)) -> HB (set_objs h (list_set (h_objs h) o r)).
Proof.
  intros H Hr o' r' Ho. rewrite obj_put in Ho.
  destruct (_ && _); [inv Ho; assumption|eapply H; eassumption].
Qed.
Lemma kh_get_bind {B} o (k : rt1 -> M B) :
  (forall r, In "bsf"%string (dkeys (r_params r)) -> keepHB (k r)) -> keepHB (bind (get_obj o) k).
Proof.
  intros Hk w H. unfold bind, get_obj, gets. destruct (obj (w_heap w) o) as [r|] eqn:E; [|assumption].
  apply Hk; [eapply H; eassumption|assumption].
Qed.
Lemma kh_put o r : In "bsf"%string (dkeys (r_params r)) -> keepHB (put_obj o r).
Proof. intros Hr w H. simpl. apply HB_put; assumption. Qed.
Lemma kh_ret {A} (a : A) : keepHB (ret a). Proof. intros w H; exact H. Qed.
Lemma kh_fail {A} e : keepHB (@fail A e). Proof. intros w H; exact H. Qed.

Ltac khgo :=
  repeat first
    [ progress (intros)
    | solve [auto 3 using kh_ret, kh_fail]
    | apply kh_get_bind
    | apply kh_put; simpl; assumption
    | apply kh_bind
    | solve [apply kh_frame; frgo]
    | match goal with
      | |- keepHB (match ?x with _ => _ end) => destruct x
      | |- keepHB (if ?x then _ else _) => destruct x
      end ].

Lemma kh_set_monostatic o p : keepHB (set_monostatic o p).
Proof. unfold set_monostatic. khgo. Qed.
Lemma kh_bistatic_step o a v : keepHB (bistatic_step o a v).
Proof. unfold bistatic_step. khgo. Qed.
Lemma kh_set_bistatic o a b c d : keepHB (set_bistatic o a b c d).
Proof.
  unfold set_bistatic.
  apply kh_get_bind; intros. apply kh_bind; [apply kh_put; assumption|intros].
  apply kh_bind; [apply kh_frame; frgo|intros].
  apply kh_get_bind; intros. apply kh_bind; [apply kh_put; assumption|intros].
  do 4 (apply kh_bind; [apply kh_bistatic_step|intros]).
  apply kh_get_bind; intros. apply kh_put; assumption.
Qed.
Lemma kh_set_geometry_loop o kw : keepHB (set_geometry_loop o kw).
Proof. induction kw as [|[a v] kw IH]; simpl; khgo. Qed.
Lemma kh_set_geometry o kw : keepHB (set_geometry o kw).
Proof.
  unfold set_geometry. destruct (rmap _ kw) as [akw|]; [|apply kh_fail].
  apply kh_get_bind. intros. destruct (_ && _); [apply kh_fail|].
  apply kh_bind; [apply kh_frame; frgo|intros; apply kh_set_geometry_loop].
Qed.
Lemma In_dkeys_dset {A} (d : dict A) k v x : In x (dkeys d) \/ x = k -> In x (dkeys (dset d k v)).
Proof.
  intros H. rewrite dkeys_dset. destruct (mem k (dkeys d)) eqn:E.
  - apply mem_In in E. destruct H; subst; assumption.
  - apply in_or_app. destruct H; [left; assumption|right; left; auto].
Qed.
Lemma In_dkeys_dupdate {A} (d kw : dict A) x : In x (dkeys d) -> In x (dkeys (dupdate d kw)).
Proof.
  unfold dupdate. revert d. induction kw as [|[k v] kw IH]; intros d H; simpl; [assumption|].
  apply IH. apply In_dkeys_dset. now left.
Qed.
Lemma kh_update o kw : keepHB (update_params o kw).
Proof.
  intros w H. rewrite update_params_eq. revert w H.
  apply kh_get_bind. intros r Hr. apply kh_put. simpl. now apply In_dkeys_dupdate.
Qed.
Lemma kh_set_def o p d : keepHB (set_def o p d).
Proof. unfold set_def. khgo. Qed.
Lemma kh_add_obj r : In "bsf"%string (dkeys (r_params r)) -> keepHB (add_obj r).
Proof.
  intros Hr w H o r' Ho. apply obj_nth in Ho. simpl in Ho.
  destruct (Nat.lt_ge_cases o (length (h_objs (w_heap w)))) as [Hlt|Hge].
  - rewrite nth_error_app1 in Ho by assumption. apply obj_nth in Ho. eapply H; eassumption.
  - rewrite nth_error_app2 in Ho by assumption.
    destruct (o - length (h_objs (w_heap w))) as [|[|]]; simpl in Ho; inv Ho. assumption.
Qed.
Lemma kh_new V S a b c d e f : keepHB (new_rt1 V S a b c d e f).
Proof.
  unfold new_rt1. destruct V, S; try apply kh_fail.
  apply kh_bind; [apply kh_add_obj; simpl; auto|intros].
  apply kh_bind; [apply kh_set_monostatic|intros; apply kh_ret].
Qed.
Lemma kh_add_arr a : keepHB (add_arr a). Proof. intros w H. exact H. Qed.
Lemma kh_add_scat a : keepHB (add_scat a). Proof. intros w H. exact H. Qed.
Lemma kh_copy_val v : keepHB (copy_val v).
Proof.
  unfold copy_val. destruct v; [apply kh_ret|].
  apply kh_bind; [apply kh_frame; frgo|intros]. apply kh_bind; [apply kh_add_arr|intros; apply kh_ret].
Qed.
Lemma kh_copy_sval v : keepHB (copy_sval v).
Proof. destruct v; simpl; (apply kh_bind; [apply kh_copy_val|intros; apply kh_ret]). Qed.
Lemma kh_copy_opt v : keepHB (copy_opt v).
Proof. destruct v; simpl; [apply kh_bind; [apply kh_copy_val|intros; apply kh_ret]|apply kh_ret]. Qed.
Lemma kh_copy_def v : keepHB (copy_def v).
Proof. destruct v; simpl; try apply kh_ret. apply kh_bind; [apply kh_copy_val|intros; apply kh_ret]. Qed.
Lemma kh_copy_params d : keepHB (copy_params d).
Proof.
  induction d as [|[k v] d IH]; simpl; [apply kh_ret|].
  apply kh_bind; [apply kh_copy_sval|intros]. apply kh_bind; [assumption|intros; apply kh_ret].
Qed.
(** copying keeps the names *)
Lemma copy_params_keys d w w' d' : copy_params d w = (w', Ok d') -> dkeys d' = dkeys d.
Proof.
  revert w w' d'. induction d as [|[k v] d IH]; intros w w' d' H; cbn [copy_params] in H.
  - inversion H; reflexivity.
  - unfold bind at 1 in H. destruct (copy_sval v w) as [w1 [x|e]]; [|discriminate].
    unfold bind at 1 in H. destruct (copy_params d w1) as [w2 [xs|e]] eqn:E; [|discriminate].
    inversion H; subst. simpl. f_equal. eapply IH; eassumption.
Qed.
Lemma kh_copy_params_bind {B} d (k : dict sval -> M B) :
  (forall d', dkeys d' = dkeys d -> keepHB (k d')) -> keepHB (bind (copy_params d) k).
Proof.
  intros Hk w H. unfold bind. pose proof (kh_copy_params d w H) as H'.
  destruct (copy_params d w) as [w' [d'|e]] eqn:E; [|exact H'].
  apply Hk; [eapply copy_params_keys; eassumption|exact H'].
Qed.
Lemma kh_pickle o : keepHB (pickle_copy o).
Proof.
  unfold pickle_copy, getstate.
  apply kh_bind; [apply kh_get_bind; intros; apply kh_put; assumption|intros _].
  apply kh_get_bind. intros r Hr.
  apply kh_bind; [apply kh_frame; frgo|intros]. apply kh_bind; [apply kh_add_scat|intros].
  apply kh_bind; [apply kh_frame; frgo|intros]. apply kh_bind; [apply kh_add_scat|intros].
  apply kh_bind; [apply kh_copy_val|intros].
  do 4 (apply kh_bind; [apply kh_copy_def|intros]).
  apply kh_copy_params_bind. intros ps Hps.
  do 4 (apply kh_bind; [apply kh_copy_opt|intros]).
  apply kh_add_obj. simpl. now rewrite Hps.
Qed.

Lemma fst_as_out {A} (f : A -> out) (m : M A) w : fst (as_out f m w) = fst (m w).
Proof. unfold as_out. destruct (m w); reflexivity. Qed.

Lemma step_HB w p : HB (w_heap w) -> HB (w_heap (fst (step w p))).
Proof.
  intros H. destruct p; cbn [step]; rewrite fst_as_out; revert w H.
  - apply kh_add_arr.
  - apply kh_add_scat.
  - apply kh_new.
  - apply kh_set_geometry.
  - apply kh_set_monostatic.
  - apply kh_set_bistatic.
  - apply kh_update.
  - apply kh_set_def.
  - apply kh_get_bind. intros. now apply kh_put.
  - apply kh_get_bind. intros. now apply kh_put.
  - apply kh_get_bind. intros. now apply kh_put.
  - apply kh_get_bind. intros. now apply kh_put.
  - apply kh_frame; frgo.
  - apply kh_frame; frgo.
  - unfold m_calc. apply kh_catch; [apply kh_bind; [apply kh_update|intros; apply kh_frame; frgo]|].
    intros e. apply kh_frame. destruct e; frgo.
  - apply kh_bind; [apply kh_update|intros; apply kh_frame; frgo].
  - apply kh_bind; [apply kh_update|intros; apply kh_frame; frgo].
  - apply kh_bind; [apply kh_update|intros; apply kh_frame; frgo].
  - apply kh_frame; frgo.
  - apply kh_frame; frgo.
  - apply kh_pickle.
  - unfold analyze_callable. apply kh_frame; frgo.
  - unfold set_lambda_backend. destruct (backend_of_str s); [intros w H; exact H|apply kh_fail].
  - unfold mutate. intros w H. destruct (nth_error _ _); exact H.
  - apply kh_frame; frgo.
  - apply kh_frame; frgo.
  - apply kh_frame; frgo.
  - apply kh_frame; frgo.
Qed.

Lemma HB_init seng : HB (init_heap seng).
Proof. intros o r Ho. apply obj_nth in Ho. simpl in Ho. destruct o; discriminate. Qed.

(** ** Admissible histories *)

(** One call that keeps the caches valid.  [J]: objects on which jacobian() was asked for a key
    other than tau, omega, NormBRDF, bsf (this compiles functions for the current parameter names).
    Excluded: changing V/SRF to a function with another number of coefficients (or at all, for
    objects in [J]); supplying a new parameter name to an object in [J]; switching to another
    backend; writing in place into an array that currently serves as t_0 or t_ex. *)
Definition adm1 (J : list nat) (h : heap) (p : op) : Prop :=
  match p with
  | OUpdate o kw | OCalc o kw | OSurface o kw | OVolume o kw | OInteraction o kw =>
      In o J -> adds_no_name h o kw
  | OSetV o s => ~ In o J /\ forall r, obj h o = Ok r -> nc_at h s = nc_at h (r_V r)
  | OSetSRF o s => ~ In o J /\ forall r, obj h o = Ok r -> nc_at h s = nc_at h (r_SRF r)
  | OSetBackend s => backend_of_str s = None \/ backend_of_str s = Some (h_be h)
  | OMutate aid _ =>
      forall o r, obj h o = Ok r -> r_ang r T0 <> Some (PArr aid) /\ r_ang r TEx <> Some (PArr aid)
  | _ => True
  end.
Definition J_after (J : list nat) (p : op) : list nat :=
  match p with OJacobian o keys _ => if forallb std_key keys then J else o :: J | _ => J end.
Fixpoint adm (J : list nat) (w : world) (ps : list op) : Prop :=
  match ps with
  | [] => True
  | p :: ps' => adm1 J (w_heap w) p /\ adm (J_after J p) (fst (step w p)) ps'
  end.

Lemma Sim_more J o w u : Sim J w u -> Sim (o :: J) w u.
Proof.
  intros (H1 & H2 & H3 & H4 & H5). repeat split; auto. intros n k v Hn Hin. right. eapply H5; eassumption.
Qed.

Lemma as_out_sim {A} J (f : A -> out) (m : M A) w u :
  simAt J m w u -> snd (as_out f m w) = snd (as_out f m u) /\ Sim J (fst (as_out f m w)) (fst (as_out f m u)).
Proof.
  intros [He Hs]. unfold as_out. destruct (m w) as [w' r], (m u) as [u' r']. simpl in *. subst. auto.
Qed.
Lemma simM_at {A} J (m : M A) w u : simM J m -> Sim J w u -> simAt J m w u.
Proof. intros H HS. apply H. assumption. Qed.

Lemma sim_put_all J o f : (forall r, agree r (f r)) -> simM J (do r <- get_obj o ;; put_obj o (f r)).
Proof. apply sim_upd_obj. Qed.

Lemma step_sim J w u p :
  Sim J w u -> HB (w_heap w) -> adm1 J (w_heap w) p ->
  snd (step w p) = snd (step u p) /\ Sim (J_after J p) (fst (step w p)) (fst (step u p)).
Proof.
  intros HS HBw Ha.
  destruct p; cbn [step J_after]; cbn [adm1] in Ha.
  19: { destruct (forallb std_key keys) eqn:Ek; apply as_out_sim.
        - apply simM_at; [|assumption]. apply sim_jacobian. congruence.
        - apply simM_at; [|apply Sim_more; assumption]. apply sim_jacobian. intros _. now left. }
  all: apply as_out_sim.
  - apply simM_at; auto with sim.
  - apply simM_at; auto with sim.
  - apply simM_at; auto using sim_new.
  - apply simM_at; auto with sim.
  - apply simM_at; auto with sim.
  - apply simM_at; auto with sim.
  - now apply sim_update.
  - apply simM_at; auto with sim.
  - apply simM_at; [|assumption]. apply sim_put_all. intros; agr.
  - apply simM_at; [|assumption]. apply sim_put_all. intros; agr.
  - destruct Ha as [HnJ Hnc]. pose proof HS as (_ & _ & E & _ & _).
    unfold simAt, bind, get_obj, gets. rewrite <- E.
    destruct (obj (w_heap w) o) as [r|] eqn:Hr; [|split; [reflexivity|assumption]].
    split; [reflexivity|]. eapply sim_swap; eauto; try (agr); simpl; auto.
    intros n. rewrite (Hnc r eq_refl). auto.
  - destruct Ha as [HnJ Hnc]. pose proof HS as (_ & _ & E & _ & _).
    unfold simAt, bind, get_obj, gets. rewrite <- E.
    destruct (obj (w_heap w) o) as [r|] eqn:Hr; [|split; [reflexivity|assumption]].
    split; [reflexivity|]. eapply sim_swap; eauto; try (agr); simpl; auto.
    intros n. rewrite (Hnc r eq_refl). auto.
  - apply simM_at; auto with sim.
  - apply simM_at; auto with sim.
  - now apply sim_calc.
  - now apply sim_api_surface.
  - now apply sim_api_volume.
  - now apply sim_api_interaction.
  - apply simM_at; auto with sim.
  - apply simM_at; auto using sim_pickle.
  - apply simM_at; auto using sim_analyze.
  - unfold set_lambda_backend. destruct Ha as [Ha|Ha]; rewrite Ha; [split; [reflexivity|assumption]|].
    split; [reflexivity|]. simpl. pose proof HS as (_ & _ & E & _ & _). rewrite <- E.
    destruct (w_heap w) eqn:Eh; simpl.
    apply Sim_upd; [assumption|]. intros n. right. rewrite Eh. exact (fun k v X => X).
  - now apply sim_mutate.
  - apply simM_at; auto with sim.
  - apply simM_at; auto with sim.
  - apply simM_at; auto with sim.
  - apply simM_at; [|assumption]. simgo.
Qed.

Theorem run_sim ps : forall J w u,
  Sim J w u -> HB (w_heap w) -> adm J w ps -> snd (run w ps) = snd (run u ps).
Proof.
  induction ps as [|p ps IH]; intros J w u HS HBw Ha; [reflexivity|].
  destruct Ha as [Ha1 Ha2]. destruct (step_sim J w u p HS HBw Ha1) as [He HS'].
  pose proof (step_HB w p HBw) as HB'.
  cbn [run]. destruct (step w p) as [w1 x], (step u p) as [u1 y]. simpl in *. subst y.
  specialize (IH _ _ _ HS' HB' Ha2).
  destruct (run w1 ps), (run u1 ps). simpl in *. congruence.
Qed.

Lemma Sim_init seng : Sim [] (init seng true) (init seng false).
Proof. repeat split; [intros n k v []|intros n k v _ []]. Qed.
