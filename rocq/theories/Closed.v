(** Histories that only mention things that exist, and the consequence that every object only
    refers to arrays and scattering functions that exist. *)
From Verif Require Export Twin.
Open Scope string_scope.
Open Scope nat_scope.
Open Scope list_scope.

(** ** A call mentions only existing things.  In python this always holds: a name cannot refer to an
    object that was never created. *)
Definition has_obj (h : heap) (o : nat) : Prop := o < length (h_objs h).
Definition has_scat (h : heap) (s : nat) : Prop := s < length (h_scats h).
Definition has_val (h : heap) (v : pyval) : Prop := match v with PNum _ => True | PArr i => i < length (h_arrs h) end.
Definition has_kw (h : heap) (kw : dict pyval) : Prop := forall k v, In (k, v) kw -> has_val h v.
(** the object a call works on *)
Definition target (p : op) : option nat :=
  match p with
  | OSetGeometry o _ | OSetMono o _ | OSetBi o _ _ _ _ | OUpdate o _ | OSetDef o _ _ | OSetFlags o _ _ _ | OSetI0 o _
  | OSetV o _ | OSetSRF o _ | OReadAngle o _ | OReadParam o _ | OCalc o _ | OSurface o _ | OVolume o _ | OInteraction o _
  | OJacobian o _ _ | OPickle o | OAnalyze o | OParamDict o | OSymbs o | OClear o => Some o
  | _ => None
  end.
Definition args_exist (h : heap) (p : op) : Prop :=
  match p with
  | ONew V0 S0 _ _ _ _ _ i0 => (forall s, V0 = Some s -> has_scat h s) /\ (forall s, S0 = Some s -> has_scat h s) /\ has_val h i0
  | OSetGeometry _ kw => forall k v, In (k, Some v) kw -> has_val h v
  | OUpdate _ kw | OCalc _ kw | OSurface _ kw | OVolume _ kw | OInteraction _ kw => has_kw h kw
  | OSetDef _ _ d => forall v, d = DVal v -> has_val h v
  | OSetI0 _ v => has_val h v
  | OSetV _ s | OSetSRF _ s | OScatCalc s _ _ _ _ _ => has_scat h s
  | OMutate i _ => i < length (h_arrs h)
  | _ => True
  end.
Definition mentions_existing (h : heap) (p : op) : Prop := (forall o, target p = Some o -> has_obj h o) /\ args_exist h p.
Fixpoint well_formed (w : world) (ps : list op) : Prop :=
  match ps with [] => True | p :: ps' => mentions_existing (w_heap w) p /\ well_formed (fst (step w p)) ps' end.

(** ** The objects of the heap only refer to existing things *)
Definition sv_val (v : sval) : pyval := match v with SRaw x | S1d x => x end.
Record closed (h : heap) (r : rt1) : Prop := mk_closed {
  cl_V : has_scat h (r_V r); cl_SRF : has_scat h (r_SRF r); cl_I0 : has_val h (r_I0 r);
  cl_def : forall p v, r_def r p = DVal v -> has_val h v;
  cl_par : forall k v, In (k, v) (r_params r) -> has_val h (sv_val v);
  cl_ang : forall a v, r_ang r a = Some v -> has_val h v }.
Definition hclosed (h : heap) : Prop := forall i r, obj h i = Ok r -> closed h r.

Lemma has_val_deref h v : has_val h v <-> exists a, deref h v = Ok a.
Proof.
  destruct v as [x|i]; simpl; [split; eauto|]. rewrite <- nth_error_Some. destruct (nth_error (h_arrs h) i); simpl; split; intros H; eauto; try congruence.
  destruct H; discriminate.
Qed.
Lemma has_scat_at h s : has_scat h s <-> exists a, scat_at h s = Ok a.
Proof.
  unfold has_scat, scat_at. rewrite <- nth_error_Some. destruct (nth_error (h_scats h) s); simpl; split; intros H; eauto; try congruence. destruct H; discriminate.
Qed.
Lemma has_obj_at h o : has_obj h o <-> exists r, obj h o = Ok r.
Proof.
  unfold has_obj, obj. rewrite <- nth_error_Some. destruct (nth_error (h_objs h) o); simpl; split; intros H; eauto; try congruence. destruct H; discriminate.
Qed.

Definition bigger (h h' : heap) : Prop := length (h_arrs h) <= length (h_arrs h') /\ length (h_scats h) <= length (h_scats h').
Lemma has_val_big h h' v : bigger h h' -> has_val h v -> has_val h' v.
Proof. intros [A _]. destruct v; simpl; [auto|lia]. Qed.
Lemma has_scat_big h h' v : bigger h h' -> has_scat h v -> has_scat h' v.
Proof. intros [_ A]. unfold has_scat. lia. Qed.
Lemma closed_big h h' r : bigger h h' -> closed h r -> closed h' r.
Proof.
  intros B []. split; eauto using has_val_big, has_scat_big.
Qed.
Lemma closed_strip h r r' : strip r' = strip r -> closed h r -> closed h r'.
Proof.
  intros E C. destruct r, r'. unfold strip in E. cbn in E. injection E. intros. subst. destruct C. split; assumption.
Qed.
Lemma nth_len {A} (l l' : list A) : (forall i x, nth_error l i = Some x -> nth_error l' i = Some x) -> length l <= length l'.
Proof.
  intros H. destruct l as [|x l]; [simpl; lia|]. destruct (nth_error (x :: l) (length l)) as [y|] eqn:E.
  - apply H in E. assert (length l < length l'); [|simpl; lia]. apply nth_error_Some. congruence.
  - apply nth_error_None in E. simpl in E. lia.
Qed.
Lemma step_big w p : bigger (w_heap w) (w_heap (fst (step w p))).
Proof.
  destruct (is_world_op p) eqn:Hp.
  - destruct p; try discriminate Hp; cbn [step]; rewrite fst_as_out.
    + unfold set_lambda_backend. destruct (backend_of_str s); split; reflexivity.
    + unfold mutate. destruct (nth_error (h_arrs (w_heap w)) aid) eqn:E; [|split; reflexivity]. split; [|reflexivity].
      simpl. rewrite list_set_length. reflexivity.
  - destruct (step_evol w p Hp) as (_ & _ & H3 & H4 & _). split; now apply nth_len.
Qed.

Lemma dset_In {A} (d : dict A) k v k' v' : In (k', v') (dset d k v) -> v' = v \/ In (k', v') d.
Proof.
  induction d as [|[k1 x] d IH]; cbn [dset]; [intros [E|[]]; left; congruence|].
  destruct (String.eqb k k1); intros [E|I].
  - left. congruence.
  - right. now right.
  - right. left. exact E.
  - destruct (IH I); [now left|right; now right].
Qed.
Lemma dupdate_In {A} kw : forall (d : dict A) k v, In (k, v) (dupdate d kw) -> In (k, v) d \/ exists k', In (k', v) kw.
Proof.
  unfold dupdate. induction kw as [|[k1 x] kw IH]; intros d k v I; [now left|]. cbn [fold_left] in I.
  apply IH in I. destruct I as [I|[k' I]]; [|right; exists k'; now right].
  apply dset_In in I. destruct I as [->|I]; [right; exists k1; now left|now left].
Qed.

Lemma closed_upd h r kw : has_kw h kw -> closed h r -> closed h (upd_rec r kw).
Proof.
  intros K C. destruct C. split; auto. cbn [upd_rec with_params r_params]. intros k v I. apply dupdate_In in I.
  destruct I as [I|[k' I]]; [eauto|]. apply in_map_iff in I. destruct I as ([k1 x] & E & I). injection E as <- <-. cbn [sv_val snd].
  unfold upd_kw in I. destruct (r_def r Bsf) as [e| |]; try (eapply K; exact I). destruct e; try (eapply K; exact I).
  destruct (_ && _ && _); [|eapply K; exact I]. apply in_app_iff in I. destruct I as [I|[I|[]]]; [eapply K; exact I|]. injection I as <- <-. exact I.
Qed.
Lemma closed_with_ang h r a v : has_val h v -> closed h r -> closed h (with_ang r a v).
Proof.
  intros K []. split; auto. cbn [with_ang r_ang]. intros b x. destruct (angle_eqb a b); [intros [= <-]; exact K|apply cl_ang0].
Qed.
Lemma closed_geo_loop h kw : forall r, (forall a v, In (a, Some v) kw -> has_val h v) -> closed h r -> closed h (fst (geo_loop kw r)).
Proof.
  induction kw as [|[a v] kw IH]; intros r K C; cbn [geo_loop]; [exact C|]. destruct (existsb _ _); [exact C|].
  destruct v as [v|]; [|exact C]. apply IH; [intros b x I; apply (K b); now right|]. apply closed_with_ang; [apply (K a); now left|exact C].
Qed.
Lemma closed_geo h kw r : (forall k v, In (k, Some v) kw -> has_val h v) -> closed h r -> closed h (fst (geo_rec kw r)).
Proof.
  intros K C. unfold geo_rec. destruct (ang_kw kw) as [akw|e] eqn:E; [|exact C]. destruct (_ && _); [exact C|].
  apply closed_geo_loop; [|exact C]. intros a v I. destruct (proj2 (ang_kw_in kw akw E) a (Some v) I) as (k & _ & Ik). exact (K k v Ik).
Qed.
Lemma closed_reset h b r : closed h r -> closed h (reset b r).
Proof. intros []. split; auto. Qed.
Lemma closed_mono h p r : closed h r -> closed h (fst (mono_rec p r)).
Proof.
  intros C. apply (closed_reset h true) in C. destruct p as [[q|]|]; cbn [mono_rec fst]; [|exact C|].
  - assert (C' := closed_with_ang h _ P0 (PNum (Fin (Q2R q))) I C). destruct C'. split; assumption.
  - destruct C. split; assumption.
Qed.
Lemma closed_bi_step h a v r : closed h r -> closed h (fst (bi_step a v r)).
Proof.
  intros C. destruct v as [[q|]|]; cbn [bi_step fst]; try exact C.
  assert (C' := closed_with_ang h r a (PNum (Fin (Q2R q))) I C). destruct C'. split; auto.
Qed.
Lemma closed_bi h a b c d r : closed h r -> closed h (fst (bi_rec a b c d r)).
Proof.
  intros C. unfold bi_rec.
  assert (C0 := closed_reset h false r C).
  apply (seqf_inv (closed h)); [now apply closed_bi_step|intros].
  apply (seqf_inv (closed h)); [now apply closed_bi_step|intros].
  apply (seqf_inv (closed h)); [now apply closed_bi_step|intros].
  apply (seqf_inv (closed h)); [now apply closed_bi_step|intros].
  destruct H2. split; auto.
Qed.
Lemma closed_step_obj h p i r : args_exist h p -> closed h r -> closed h (step_obj p i r).
Proof.
  intros M C. destruct p; cbn [step_obj]; try exact C; cbn [args_exist] in M; destruct (o =? i); try exact C.
  - now apply closed_geo.
  - now apply closed_mono.
  - now apply closed_bi.
  - now apply closed_upd.
  - destruct C. split; auto. cbn [with_def r_def]. intros q v. destruct p, q; try apply cl_def0; intros ->; now apply M.
  - destruct C; split; auto.
  - destruct C; split; auto.
  - destruct C; split; auto.
  - destruct C; split; auto.
  - now apply closed_upd.
  - now apply closed_upd.
  - now apply closed_upd.
  - now apply closed_upd.
  - destruct C; split; auto.
Qed.

Lemma copied_has h h' v v' : has_val h v -> copied h h' v v' -> has_val h' v'.
Proof. intros H [C _]. apply has_val_deref in H. destruct H as [a H]. apply has_val_deref. exists a. auto. Qed.
Lemma copied_p_In h h' d d' k v' : copied_p h h' d d' -> In (k, v') d' -> exists v, In (k, v) d /\ copied_s h h' v v'.
Proof.
  induction 1 as [|[k1 x] [k2 y] d d' [E V] _ IH]; [intros []|]. cbn [fst snd] in *. subst k2. intros [E|I].
  - injection E as <- <-. exists x. split; [now left|exact V].
  - destruct (IH I) as (v & A & B). exists v. split; [now right|exact B].
Qed.
Lemma copy_closed h h' r r' : closed h r -> copy_of h h' r r' -> closed h' r'.
Proof.
  intros [] (C1 & C2 & C3 & C4 & C5 & C6 & _).
  split.
  - apply has_scat_at in cl_V0. destruct cl_V0 as [s E]. apply has_scat_at. eauto.
  - apply has_scat_at in cl_SRF0. destruct cl_SRF0 as [s E]. apply has_scat_at. eauto.
  - eapply copied_has; eassumption.
  - intros p v E. specialize (C4 p). rewrite E in C4. destruct (r_def r p) as [e|e|x] eqn:Ex; simpl in C4; try contradiction.
    eapply copied_has; [|exact C4]. eauto.
  - intros k v I. destruct (copied_p_In _ _ _ _ _ _ C5 I) as (x & Ix & Cx). specialize (cl_par0 k x Ix).
    destruct x, v; simpl in *; try contradiction; eapply copied_has; eassumption.
  - intros a v E. specialize (C6 a). rewrite E in C6. destruct (r_ang r a) as [x|] eqn:Ex; simpl in C6; try contradiction.
    eapply copied_has; [|exact C6]. eauto.
Qed.
Lemma grows_big h h' : grows h h' -> bigger h h'.
Proof. intros (_ & _ & _ & A & B). split; now apply nth_len. Qed.

Lemma step_closed w p : hclosed (w_heap w) -> mentions_existing (w_heap w) p -> hclosed (w_heap (fst (step w p))).
Proof.
  intros H M i r' Hr'. pose proof (step_big w p) as Hb. destruct (obj (w_heap w) i) as [r|e] eqn:Er.
  - destruct (step_obj_ex w p i r Er) as (r2 & E2 & S). assert (r2 = r') by congruence. subst r2.
    eapply closed_strip; [exact S|]. eapply closed_big; [exact Hb|]. apply closed_step_obj; [apply M|]. eauto.
  - destruct (creates p) eqn:Hc.
    2:{ exfalso. assert (L : length (h_objs (w_heap w)) <= i) by (apply obj_err_len; eauto).
        assert (exists e, obj (w_heap (fst (step w p))) i = Err e) as [e' E']; [|congruence]. apply obj_err_len. now rewrite step_len. }
    assert (L : length (h_objs (w_heap w)) <= i) by (apply obj_err_len; eauto).
    destruct p; try discriminate Hc; clear Hc.
    + (* ONew *) cbn [step] in *. unfold as_out in *. pose proof (new_objs V SRF iq sg db fi fe i0 w) as Hn.
      destruct (new_rt1 V SRF iq sg db fi fe i0 w) as [w' [n|x]]; cbn [fst snd] in *.
      * destruct Hn as (v & s & -> & -> & _ & Ho & _). destruct (Nat.eq_dec i (length (h_objs (w_heap w)))) as [->|Hne].
        -- rewrite (obj_app_last _ _ _ Ho) in Hr'. assert (r' = fst (mono_rec None (blank v s iq sg db fi fe i0))) as -> by congruence.
           apply closed_mono. eapply closed_big; [exact Hb|]. destruct M as (_ & M1 & M2 & M3). split; cbn; auto; intros ? ?; try discriminate. intros [[= <- <-]|[]]. exact I.
        -- rewrite (obj_app _ _ _ _ Ho Hne) in Hr'. unfold obj in Er. congruence.
      * unfold obj in *. rewrite Hn in Hr'. congruence.
    + (* OPickle *) cbn [step] in *. unfold as_out in *. destruct M as [M _]. specialize (M o eq_refl). apply has_obj_at in M. destruct M as [ro Eo].
      rewrite (pickle_eq _ _ _ Eo) in *. set (w1 := fst (put_obj o (with_plots ro false) w)) in *.
      assert (E1 : obj (w_heap w1) i = Err e).
      { unfold w1. rewrite w_heap_put. rewrite obj_hput_other; [exact Er|]. intros ->. congruence. }
      pose proof (pickle_rest_spec (with_plots ro false) w1) as Hp.
      destruct (pickle_rest (with_plots ro false) w1) as [w' [n|x]]; cbn [fst snd] in *.
      * destruct Hp as (_ & h' & rn & G & Eh & Cp). rewrite Eh in Hr'.
        destruct (Nat.eq_dec i (length (h_objs h'))) as [->|Hne].
        -- rewrite (obj_app_last (set_objs h' (h_objs h' ++ [rn])) (h_objs h') rn eq_refl) in Hr'. assert (r' = rn) as -> by congruence.
           rewrite Eh. assert (closed h' rn) as []; [|split; assumption]. eapply copy_closed; [|exact Cp].
           assert (C := H o ro Eo). unfold w1. rewrite w_heap_put. destruct C. split; assumption.
        -- rewrite (obj_app (set_objs h' (h_objs h' ++ [rn])) (h_objs h') rn i eq_refl Hne) in Hr'. destruct G as (_ & _ & G & _). rewrite G in Hr'.
           unfold obj in E1. congruence.
      * destruct Hp as (_ & _ & G & _). unfold obj in *. rewrite G in Hr'. congruence.
Qed.
Lemma run_closed ps : forall w, hclosed (w_heap w) -> well_formed w ps -> hclosed (w_heap (fst (run w ps))).
Proof.
  induction ps as [|p ps IH]; intros w H W; [exact H|]. rewrite run_cons. cbn [fst]. destruct W as [M W]. apply IH; [|exact W]. now apply step_closed.
Qed.
Lemma hclosed_init seng on : hclosed (w_heap (init seng on)).
Proof. intros i r H. unfold obj in H. simpl in H. destruct i; discriminate. Qed.
