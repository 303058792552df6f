(** Interleaved calls on several objects, in the program with caches. *)
From Verif Require Export Others.
Open Scope string_scope.
Open Scope nat_scope.
Open Scope list_scope.

(** [p] evaluates or configures object [o] (pickling it and opening a plot are not counted) *)
Definition uses (o : nat) (p : op) : bool :=
  match p with OPickle _ | OAnalyze _ => false | _ => match target p with Some x => x =? o | None => false end end.
(** the same call on object [n] *)
Definition retarget (n : nat) (p : op) : op :=
  match p with
  | OSetGeometry _ kw => OSetGeometry n kw | OSetMono _ a => OSetMono n a | OSetBi _ a b c d => OSetBi n a b c d
  | OUpdate _ kw => OUpdate n kw | OSetDef _ q d => OSetDef n q d | OSetFlags _ a b c => OSetFlags n a b c
  | OSetI0 _ v => OSetI0 n v | OSetV _ s => OSetV n s | OSetSRF _ s => OSetSRF n s
  | OReadAngle _ a => OReadAngle n a | OReadParam _ q => OReadParam n q | OCalc _ kw => OCalc n kw
  | OSurface _ kw => OSurface n kw | OVolume _ kw => OVolume n kw | OInteraction _ kw => OInteraction n kw
  | OJacobian _ ks f => OJacobian n ks f | OPickle _ => OPickle n | OAnalyze _ => OAnalyze n | OParamDict _ => OParamDict n
  | OSymbs _ => OSymbs n | OClear _ => OClear n
  | _ => p
  end.
(** what the calls on object [o] return when [ps] is executed *)
Definition answers (o : nat) (w : world) (ps : list op) : list out :=
  map snd (filter (fun px => uses o (fst px)) (trace w ps)).
(** calls on [o] only use values that exist in [h]; nothing is written in place and the backend stays *)
Definition separate (h : heap) (o : nat) (p : op) : Prop :=
  if uses o p then args_exist h p
  else match p with OMutate _ _ | OSetBackend _ => False | _ => True end.

Definition ext (h h' : heap) : Prop :=
  h_be h' = h_be h /\ h_seng h' = h_seng h /\
  (forall i a, nth_error (h_scats h) i = Some a -> nth_error (h_scats h') i = Some a) /\
  (forall i a, nth_error (h_arrs h) i = Some a -> nth_error (h_arrs h') i = Some a).
Lemma ext_refl h : ext h h. Proof. repeat split; auto. Qed.
Lemma ext_trans a b c : ext a b -> ext b c -> ext a c.
Proof. intros (A1 & A2 & A3 & A4) (B1 & B2 & B3 & B4). repeat split; try congruence; auto. Qed.
Lemma grows_ext h h' : grows h h' -> ext h h'.
Proof. intros (A & B & _ & C & D). repeat split; auto. Qed.
Lemma ext_deref h h' v a : ext h h' -> deref h v = Ok a -> deref h' v = Ok a.
Proof.
  intros (_ & _ & _ & G) H. destruct v as [x|i]; simpl in *; [assumption|].
  destruct (nth_error (h_arrs h) i) as [y|] eqn:E; [|discriminate]. now rewrite (G _ _ E).
Qed.
Lemma ext_scat h h' i s : ext h h' -> scat_at h i = Ok s -> scat_at h' i = Ok s.
Proof. intros (_ & _ & G & _) H. unfold scat_at in *. destruct (nth_error (h_scats h) i) as [y|] eqn:E; [|discriminate]. now rewrite (G _ _ E). Qed.

(** ** twins survive when the second heap grows *)
Lemma veq_ext h h1 h2 v v' : veq h h1 v v' -> ext h1 h2 -> veq h h2 v v'.
Proof. destruct v, v'; simpl; try tauto. intros (a & A & B) E. exists a. split; [exact A|]. exact (ext_deref _ _ (PArr _) _ E B). Qed.
Lemma scateq_ext h h1 h2 v v' : scateq h h1 v v' -> ext h1 h2 -> scateq h h2 v v'.
Proof. intros (s & A & B) E. exists s. split; [exact A|]. eapply ext_scat; eassumption. Qed.
Lemma tw_ext h h1 h2 r r' : tw h h1 r r' -> ext h1 h2 -> tw h h2 r r'.
Proof.
  intros [] E. split; auto.
  - eapply scateq_ext; eassumption.
  - eapply scateq_ext; eassumption.
  - eapply veq_ext; eassumption.
  - intros p. specialize (tw_def p). destruct (r_def r p), (r_def r' p); simpl in *; try tauto. eapply veq_ext; eassumption.
  - unfold peq in *. induction tw_par as [|x y d d' [A B] _ IH]; constructor; [|exact IH]. split; [exact A|].
    destruct (snd x), (snd y); simpl in *; try tauto; eapply veq_ext; eassumption.
  - intros a. specialize (tw_ang a). destruct (r_ang r a), (r_ang r' a); simpl in *; try tauto. eapply veq_ext; eassumption.
Qed.
Lemma tw_plots h h' r r' b : tw h h' r r' -> tw h h' r (with_plots r' b).
Proof. intros []; split; auto. Qed.
Lemma has_veq h h' v : ext h h' -> has_val h v -> veq h h' v v.
Proof.
  intros E H. destruct v as [x|i]; simpl; [reflexivity|]. apply has_val_deref in H. destruct H as [a H]. exists a. split; [exact H|].
  exact (ext_deref _ _ (PArr i) _ E H).
Qed.
Lemma has_scateq h h' s : ext h h' -> has_scat h s -> scateq h h' s s.
Proof. intros E H. apply has_scat_at in H. destruct H as [a H]. exists a. split; [exact H|]. eapply ext_scat; eassumption. Qed.
Lemma tw_self h h' r : closed h r -> ext h h' -> tw h h' r r.
Proof.
  intros [] E. split; auto using has_scateq, has_veq.
  - intros p. destruct (r_def r p) eqn:D; simpl; auto. apply has_veq; eauto.
  - unfold peq. assert (G : forall d : dict sval, (forall k v, In (k, v) d -> has_val h (sv_val v)) -> Forall2 (fun x y => fst x = fst y /\ sveq h h' (snd x) (snd y)) d d).
    { induction d as [|[k v] d IH]; intros K; constructor.
      - split; [reflexivity|]. cbn [snd]. specialize (K k v (or_introl eq_refl)). destruct v; simpl in *; apply has_veq; assumption.
      - apply IH. intros k0 v0 I. apply (K k0). now right. }
    apply G. exact cl_par.
  - intros a. destruct (r_ang r a) eqn:D; simpl; auto. apply has_veq; eauto.
Qed.
Lemma copied_veq h h' v v' : has_val h v -> copied h h' v v' -> veq h h' v v'.
Proof.
  intros H [C K]. destruct v, v'; simpl in *; try tauto.
  destruct (proj1 (has_val_deref h (PArr _)) H) as [a A]. exists a. split; [exact A|]. exact (C a A).
Qed.
Lemma tw_copy h h' r r' : closed h r -> copy_of h h' r r' -> tw h h' r r'.
Proof.
  intros [] (C1 & C2 & C3 & C4 & C5 & C6 & C7 & C8 & C9 & C10 & C11 & C12 & C13 & C14 & C15 & C16 & _).
  split; auto using copied_veq.
  - apply has_scat_at in cl_V. destruct cl_V as [s E]. exists s. auto.
  - apply has_scat_at in cl_SRF. destruct cl_SRF as [s E]. exists s. auto.
  - intros p. specialize (C4 p). destruct (r_def r p) eqn:D, (r_def r' p); simpl in *; try tauto. apply copied_veq; eauto.
  - unfold peq. revert cl_par. induction C5 as [|[k x] [k' y] d d' [A B] _ IH]; intros K; constructor.
    + split; [exact A|]. cbn [snd] in *. specialize (K k x (or_introl eq_refl)). destruct x, y; simpl in *; try tauto; apply copied_veq; assumption.
    + apply IH. intros k0 v0 I. apply (K k0). now right.
  - intros a. specialize (C6 a). destruct (r_ang r a) eqn:D, (r_ang r' a); simpl in *; try tauto. apply copied_veq; eauto.
Qed.

(** ** one call *)
Lemma retarget_id o p : uses o p = true -> retarget o p = p.
Proof. destruct p; cbn; try discriminate; intros E; apply Nat.eqb_eq in E; now subst. Qed.
Lemma uses_target o p : uses o p = true -> target p = Some o.
Proof. destruct p; cbn; try discriminate; intros E; apply Nat.eqb_eq in E; now subst. Qed.
Lemma same_retarget h h' o o' p : ext h h' -> uses o' p = true -> separate h o' p -> same_op h h' o o' (retarget o p) p.
Proof.
  intros E U S. unfold separate in S. rewrite U in S.
  destruct p; cbn in U; try discriminate U; apply Nat.eqb_eq in U; subst; cbn [retarget]; cbn [args_exist] in S; constructor.
  all: try (intros k v' I; apply (has_veq _ _ _ E); exact (S k v' I)).
  - destruct d; simpl; auto. apply (has_veq _ _ _ E). exact (S _ eq_refl).
  - apply (has_veq _ _ _ E). exact S.
  - apply (has_scateq _ _ _ E). exact S.
  - apply (has_scateq _ _ _ E). exact S.
Qed.
Lemma T_heaps h h' o o' w w' : T h h' o o' w w' -> exists r r', obj (w_heap w) o = Ok r /\ obj (w_heap w') o' = Ok r' /\ tw h h' r r' /\
  (forall i, scat_at (w_heap w) i = scat_at h i) /\ (forall i, scat_at (w_heap w') i = scat_at h' i).
Proof.
  intros (l & l' & k & k' & r & r' & -> & -> & R1 & R2 & R3). exists r, r'. cbn [w_heap]. split; [now apply obj_nth|]. split; [now apply obj_nth|]. split; [exact R3|]. split; reflexivity.
Qed.
(** admissibility carries over between twins *)
Lemma adm1_twin h h' o o' J J' w w' p p' : T h h' o o' w w' -> (In o' J' <-> In o J) -> same_op h h' o o' p p' ->
  adm1 J' (w_heap w') p' -> adm1 J (w_heap w) p.
Proof.
  intros HT HJ HS. destruct (T_heaps _ _ _ _ _ _ HT) as (r & r' & Eo & Eo' & R & Sc & Sc').
  assert (NC : forall i i', scateq h h' i i' -> nc_at (w_heap w') i' = nc_at (w_heap w) i).
  { intros i i' S. unfold nc_at. rewrite Sc, Sc'. now rewrite (scat_eq _ _ _ _ S). }
  destruct HS; cbn [adm1]; auto.
  1,4,5,6,7: (intros A I x Ex; apply HJ in I; specialize (A I r' Eo'); assert (x = r) as -> by congruence; now rewrite (peq_keys _ _ _ _ (tw_par _ _ _ _ R)) in A).
  - intros [A B]. split; [now rewrite <- HJ|]. intros x Ex. assert (x = r) as -> by congruence.
    rewrite <- (NC _ _ H), <- (NC _ _ (tw_V _ _ _ _ R)). now apply B.
  - intros [A B]. split; [now rewrite <- HJ|]. intros x Ex. assert (x = r) as -> by congruence.
    rewrite <- (NC _ _ H), <- (NC _ _ (tw_SRF _ _ _ _ R)). now apply B.
Qed.
Lemma J_twin h h' o o' J J' p p' : (In o' J' <-> In o J) -> same_op h h' o o' p p' -> (In o' (J_after J' p') <-> In o (J_after J p)).
Proof. intros HJ []; cbn [J_after]; auto. destruct (forallb std_key ks); [exact HJ|]. cbn. tauto. Qed.
Lemma J_other o' J' p : uses o' p = false -> (In o' (J_after J' p) <-> In o' J').
Proof.
  intros U. destruct p; cbn [J_after]; try reflexivity. destruct (forallb std_key keys); [reflexivity|]. cbn in *. apply Nat.eqb_neq in U. intuition.
Qed.
(** a call that is not on [o'] *)
Lemma world_eta w : w = mk_world (set_objs (w_heap w) (h_objs (w_heap w))) (w_on w) (w_caches w).
Proof. destruct w as [[] ? ?]. reflexivity. Qed.
Lemma T_other h h' o o' u u' p : ext h h' -> T h h' o o' u u' -> w_on (fst (step u' p)) = false ->
  uses o' p = false -> match p with OMutate _ _ | OSetBackend _ => False | _ => True end ->
  exists h'', ext h h'' /\ T h h'' o o' u (fst (step u' p)).
Proof.
  intros E HT On U Hw. destruct HT as (l & l' & k & k' & r & r' & -> & -> & R1 & R2 & R3).
  set (u' := mk_world (set_objs h' l') false k') in *.
  assert (Ew : ext h' (w_heap (fst (step u' p)))).
  { assert (Hp : is_world_op p = false) by (destruct p; auto; contradiction). destruct (step_evol u' p Hp) as (A1 & A2 & A3 & A4 & _). repeat split; auto. }
  exists (w_heap (fst (step u' p))). split; [eapply ext_trans; eassumption|].
  assert (Hr : exists r2, nth_error (h_objs (w_heap (fst (step u' p)))) o' = Some r2 /\ (r2 = r' \/ r2 = with_plots r' false)).
  { assert (L : o' < length (h_objs (w_heap u'))) by (apply nth_error_Some; cbn [u' w_heap set_objs h_objs]; congruence).
    assert (Cs : target p <> Some o' \/ p = OPickle o' \/ p = OAnalyze o').
    { destruct p; cbn in U |- *; try (left; discriminate); try (apply Nat.eqb_neq in U; left; congruence).
      - destruct (Nat.eq_dec o0 o'); [subst; tauto|left; congruence].
      - destruct (Nat.eq_dec o0 o'); [subst; tauto|left; congruence]. }
    destruct Cs as [Ht|[->| ->]].
    - exists r'. split; [|now left]. pose proof (step_others u' p o' L Ht) as X. unfold objs_at in X. rewrite X. exact R2.
    - exists (with_plots r' false). split; [|now right]. cbn [step]. rewrite fst_as_out.
      assert (Eo : obj (w_heap u') o' = Ok r') by (now apply obj_nth). rewrite (pickle_eq _ _ _ Eo). set (w1 := fst (put_obj o' (with_plots r' false) u')).
      assert (E1 : nth_error (h_objs (w_heap w1)) o' = Some (with_plots r' false)) by (unfold w1; rewrite w_heap_put; apply obj_nth; eapply obj_hput_same; eassumption).
      pose proof (pickle_rest_spec (with_plots r' false) w1) as Hp. destruct (pickle_rest (with_plots r' false) w1) as [w' [n|x]]; cbn [fst].
      + destruct Hp as (_ & hh & rn & (_ & _ & G & _) & -> & _). cbn [set_objs h_objs]. rewrite G. rewrite nth_error_app1; [exact E1|]. apply nth_error_Some. congruence.
      + destruct Hp as (_ & _ & G & _). now rewrite G.
    - exists r'. split; [|now left]. cbn [step]. rewrite fst_as_out. unfold analyze_callable, bind, get_obj, gets, obj. cbn [u' w_heap set_objs h_objs]. rewrite R2. simpl. destruct (r_plots r'); exact R2. }
  destruct Hr as (r2 & Er2 & Hr2). clearbody u'.
  exists l, (h_objs (w_heap (fst (step u' p)))), k, (w_caches (fst (step u' p))), r, r2.
  split; [reflexivity|]. split; [rewrite <- On; apply world_eta|]. split; [exact R1|]. split; [exact Er2|].
  apply (tw_ext _ _ _ _ _ R3) in Ew. destruct Hr2 as [->| ->]; [exact Ew|now apply tw_plots].
Qed.

(** the answers of [o'] in an interleaved run are those of its twin [o] when only the calls on it are made *)
Lemma interleave h o o' rs : forall h' J J' w w' u u',
  Sim J w u -> Sim J' w' u' -> HB (w_heap w) -> HB (w_heap w') -> ext h h' -> T h h' o o' u u' ->
  Forall (separate h o') rs -> adm J' w' rs ->
  (In o' J' <-> In o J) \/ adm J w (map (retarget o) (filter (uses o') rs)) ->
  adm J w (map (retarget o) (filter (uses o') rs)) /\
  answers o' w' rs = snd (run w (map (retarget o) (filter (uses o') rs))).
Proof.
  induction rs as [|p rs IH]; intros h' J J' w w' u u' HS HS' HB1 HB2 E HT Hsep Ha HJ; [split; [exact I|reflexivity]|].
  inversion Hsep as [|? ? Hp Hrs]. subst. destruct Ha as [Ha1 Ha2].
  destruct (step_sim J' w' u' p HS' HB2 Ha1) as [O2 HS2]. pose proof (step_HB w' p HB2) as HB2'.
  unfold answers. rewrite trace_cons. cbn [filter fst]. destruct (uses o' p) eqn:U.
  - pose proof (same_retarget h h' o o' p E U Hp) as So. cbn [map].
    assert (Hh : w_heap w = w_heap u) by apply HS. assert (Hh' : w_heap w' = w_heap u') by apply HS'.
    assert (A1 : adm1 J (w_heap w) (retarget o p)).
    { destruct HJ as [HJ|HJ]; [|cbn [filter] in HJ; rewrite U in HJ; exact (proj1 HJ)]. rewrite Hh; rewrite Hh' in Ha1; eapply adm1_twin; eassumption. }
    assert (HJ1 : (In o' (J_after J' p) <-> In o (J_after J (retarget o p))) \/ adm (J_after J (retarget o p)) (fst (step w (retarget o p))) (map (retarget o) (filter (uses o') rs))).
    { destruct HJ as [HJ|HJ]; [left; exact (J_twin _ _ _ _ _ _ _ _ HJ So)|right]. cbn [filter] in HJ. rewrite U in HJ. exact (proj2 HJ). }
    destruct (step_sim J w u (retarget o p) HS HB1 A1) as [O1 HS1]. pose proof (step_HB w (retarget o p) HB1) as HB1'.
    destruct E as (Eb & Es & E3 & E4). destruct (rel_step h h' o o' Eb Es _ _ _ _ So HT) as [O3 HT1].
    destruct (IH h' _ _ _ _ _ _ HS1 HS2 HB1' HB2' (conj Eb (conj Es (conj E3 E4))) HT1 Hrs Ha2 HJ1) as [I1 I2].
    split; [split; [exact A1|exact I1]|]. rewrite run_cons. cbn [snd map]. unfold answers in I2. rewrite I2. f_equal. congruence.
  - unfold separate in Hp. rewrite U in Hp.
    destruct (T_other h h' o o' u u' p E HT (proj1 (proj2 HS2)) U Hp) as (h'' & E' & HT').
    apply (IH h'' J (J_after J' p) w (fst (step w' p)) u (fst (step u' p)) HS HS2 HB1 HB2' E' HT'); [exact Hrs|exact Ha2|].
    cbn [filter] in HJ. rewrite U in HJ. rewrite (J_other o' J' p U). exact HJ.
Qed.
