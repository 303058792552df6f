(** What one call does to the objects, arrays and scatter objects that already exist. *)
From Verif Require Export StateEff.
Open Scope nat_scope.

(** the record of object [i] after operation [p], up to the memoised fn-expressions *)
Definition step_obj (p : op) (i : nat) (r : rt1) : rt1 :=
  let on o x := if o =? i then x else r in
  match p with
  | OSetGeometry o kw => on o (fst (geo_rec kw r))
  | OSetMono o p0 => on o (fst (mono_rec p0 r))
  | OSetBi o a b c d => on o (fst (bi_rec a b c d r))
  | OUpdate o kw | OCalc o kw | OSurface o kw | OVolume o kw | OInteraction o kw => on o (upd_rec r kw)
  | OSetDef o q d => on o (with_def r q d)
  | OSetFlags o a b c => on o (with_flags r a b c)
  | OSetI0 o v => on o (with_I0 r v)
  | OSetV o s => on o (with_V r s)
  | OSetSRF o s => on o (with_SRF r s)
  | OPickle o => on o (with_plots r false)
  | _ => r
  end.

(** old arrays and scatter objects stay, objects evolve by [g] *)
Definition evol (h h' : heap) (g : nat -> rt1 -> rt1) : Prop :=
  h_be h' = h_be h /\ h_seng h' = h_seng h /\
  (forall a x, nth_error (h_arrs h) a = Some x -> nth_error (h_arrs h') a = Some x) /\
  (forall a x, nth_error (h_scats h) a = Some x -> nth_error (h_scats h') a = Some x) /\
  (forall i r, obj h i = Ok r -> exists r', obj h' i = Ok r' /\ strip r' = strip (g i r)) /\
  (length (h_objs h') >= length (h_objs h)).

Definition same_g (i : nat) (r : rt1) : rt1 := r.

Lemma evol_frame h h' : hstrip h' = hstrip h -> evol h h' same_g.
Proof.
  intros E. assert (Ho : map strip (h_objs h') = map strip (h_objs h)) by (injection E; auto).
  assert (Hl : length (h_objs h') = length (h_objs h)).
  { rewrite <- (map_length strip), Ho. apply map_length. }
  unfold evol. injection E. intros _ E1 E2 E3 E4.
  rewrite E1, E2, E3, E4. do 4 (split; [auto|]). split; [|lia].
  intros i r Hr. apply obj_nth in Hr.
  assert (X : nth_error (map strip (h_objs h')) i = Some (strip r)) by (rewrite Ho; now apply map_nth_error).
  destruct (nth_error (h_objs h') i) as [r'|] eqn:Er.
  - exists r'. split; [now apply obj_nth|]. rewrite (map_nth_error strip _ _ Er) in X. unfold same_g. congruence.
  - exfalso. apply nth_error_None in Er. assert (i < length (map strip (h_objs h'))) by (apply nth_error_Some; congruence).
    rewrite map_length in H. lia.
Qed.

Lemma evol_trans h1 h2 h3 g :
  evol h1 h2 g -> evol h2 h3 same_g -> evol h1 h3 g.
Proof.
  intros (A1 & A2 & A3 & A4 & A5 & A6) (B1 & B2 & B3 & B4 & B5 & B6).
  unfold evol. rewrite B1, B2. do 2 (split; [assumption|]).
  do 2 (split; [auto|]). split; [|lia]. intros i r Hr.
  destruct (A5 i r Hr) as (r2 & Hr2 & E2). destruct (B5 i r2 Hr2) as (r3 & Hr3 & E3).
  exists r3. split; [assumption|]. unfold same_g in E3. congruence.
Qed.

Lemma evol_hput h o r f : obj h o = Ok r ->
  evol h (hput h o (f r)) (fun i r => if o =? i then f r else r).
Proof.
  intros Hr. unfold evol. do 4 (split; [auto|]). split.
  - intros i r0 Hi. destruct (Nat.eqb_spec o i).
    + subst i. rewrite Hi in Hr. inv Hr. exists (f r). split; [eapply obj_hput_same; eassumption|reflexivity].
    + exists r0. split; [now rewrite obj_hput_other|reflexivity].
  - unfold hput; simpl. apply Nat.eq_le_incl. clear. generalize (h_objs h) as l. intros l. revert o.
    induction l; intros [|o]; simpl; auto.
Qed.

Lemma evol_same h h' : h' = h -> evol h h' same_g.
Proof. intros ->. apply evol_frame. reflexivity. Qed.

Lemma evol_ext h h' g g' : evol h h' g -> (forall i r, obj h i = Ok r -> strip (g i r) = strip (g' i r)) -> evol h h' g'.
Proof.
  intros (A1 & A2 & A3 & A4 & A5 & A6) HE. unfold evol. do 4 (split; [assumption|]). split; [|assumption].
  intros i r Hr. destruct (A5 i r Hr) as (r' & H1 & H2). exists r'. split; [assumption|]. rewrite H2. now apply HE.
Qed.

(** methods that act on one object *)
Lemma evol_eff {A} (m : M A) o f :
  effOk m o f -> (forall w e, obj (w_heap w) o = Err e -> w_heap (fst (m w)) = w_heap w) ->
  forall w, evol (w_heap w) (w_heap (fst (m w))) (fun i r => if o =? i then fst (f r) else r).
Proof.
  intros He Hn w. destruct (obj (w_heap w) o) as [r|e] eqn:Er.
  - destruct (He w r Er) as [-> _]. apply (evol_hput _ _ _ (fun r => fst (f r)) Er).
  - rewrite (Hn w e Er). eapply evol_ext; [apply evol_same; reflexivity|].
    intros i r Hr. unfold same_g. destruct (Nat.eqb_spec o i); [subst; congruence|reflexivity].
Qed.
Lemma evol_effect {A} (m : M A) o f : effect m o f ->
  forall w, evol (w_heap w) (w_heap (fst (m w))) (fun i r => if o =? i then fst (f r) else r).
Proof. intros [H1 H2]. apply evol_eff; [assumption|]. intros w e E. destruct (H2 w e E) as [-> _]. reflexivity. Qed.

Lemma bind_fst {A B} (m : M A) (k : A -> M B) w :
  fst (bind m k w) = match snd (m w) with Ok a => fst (k a (fst (m w))) | Err _ => fst (m w) end.
Proof. unfold bind. destruct (m w) as [w' [a|e]]; reflexivity. Qed.
Lemma evol_then_frame {A B} (m : M A) (k : A -> M B) g :
  (forall w, evol (w_heap w) (w_heap (fst (m w))) g) -> (forall a, frame (k a)) ->
  forall w, evol (w_heap w) (w_heap (fst (bind m k w))) g.
Proof.
  intros Hm Hk w. rewrite bind_fst. destruct (snd (m w)) as [a|e]; [|apply Hm].
  eapply evol_trans; [apply Hm|]. apply evol_frame. apply Hk.
Qed.
Lemma evol_catch_frame {A} (m : M A) (k : exn -> M A) g :
  (forall w, evol (w_heap w) (w_heap (fst (m w))) g) -> (forall a, frame (k a)) ->
  forall w, evol (w_heap w) (w_heap (fst (catch m k w))) g.
Proof.
  intros Hm Hk w. unfold catch. specialize (Hm w). destruct (m w) as [w' [a|e]]; simpl in *; [assumption|].
  eapply evol_trans; [apply Hm|]. apply evol_frame. apply Hk.
Qed.

Lemma upd_eff o (f : rt1 -> rt1) : effect (do r <- get_obj o ;; put_obj o (f r)) o (fun r => (f r, Ok tt)).
Proof. apply effect_get. intros w r H. split; reflexivity. Qed.

(** pure allocation *)
Definition allocs {A} (m : M A) : Prop := forall w, evol (w_heap w) (w_heap (fst (m w))) same_g.
Lemma al_frame {A} (m : M A) : frame m -> allocs m.
Proof. intros H w. apply evol_frame, H. Qed.
Lemma al_bind {A B} (m : M A) (k : A -> M B) : allocs m -> (forall a, allocs (k a)) -> allocs (bind m k).
Proof.
  intros Hm Hk w. rewrite bind_fst. destruct (snd (m w)); [|apply Hm].
  eapply evol_trans; [apply Hm|apply Hk].
Qed.
Lemma evol_then_al {A B} (m : M A) (k : A -> M B) g :
  (forall w, evol (w_heap w) (w_heap (fst (m w))) g) -> (forall a, allocs (k a)) ->
  forall w, evol (w_heap w) (w_heap (fst (bind m k w))) g.
Proof.
  intros Hm Hk w. rewrite bind_fst. destruct (snd (m w)) as [a|e]; [|apply Hm].
  eapply evol_trans; [apply Hm|]. apply Hk.
Qed.
Lemma nth_error_app_l {A} (l m : list A) i x : nth_error l i = Some x -> nth_error (l ++ m) i = Some x.
Proof. intros H. rewrite nth_error_app1; [assumption|]. apply nth_error_Some. congruence. Qed.
Lemma al_add_arr a : allocs (add_arr a).
Proof.
  intros w. unfold evol; simpl. do 2 (split; [reflexivity|]).
  split; [intros; now apply nth_error_app_l|]. split; [auto|]. split; [|lia].
  intros i r H. exists r. split; [assumption|reflexivity].
Qed.
Lemma al_add_scat a : allocs (add_scat a).
Proof.
  intros w. unfold evol; simpl. do 2 (split; [reflexivity|]). split; [auto|].
  split; [intros; now apply nth_error_app_l|]. split; [|lia].
  intros i r H. exists r. split; [assumption|reflexivity].
Qed.
Lemma al_add_obj a : allocs (add_obj a).
Proof.
  intros w. unfold evol; simpl. do 2 (split; [reflexivity|]). do 2 (split; [auto|]).
  split; [|rewrite app_length; lia].
  intros i r H. exists r. split; [|reflexivity]. apply obj_nth. apply obj_nth in H. now apply nth_error_app_l.
Qed.
Lemma al_ret {A} (a : A) : allocs (ret a). Proof. intros w. now apply evol_same. Qed.
Lemma al_copy_val v : allocs (copy_val v).
Proof.
  destruct v; simpl; [apply al_ret|]. apply al_bind; [apply al_frame; frgo|intros].
  apply al_bind; [apply al_add_arr|intros; apply al_ret].
Qed.
Lemma al_copy_sval v : allocs (copy_sval v).
Proof. destruct v; simpl; (apply al_bind; [apply al_copy_val|intros; apply al_ret]). Qed.
Lemma al_copy_opt v : allocs (copy_opt v).
Proof. destruct v; simpl; [apply al_bind; [apply al_copy_val|intros; apply al_ret]|apply al_ret]. Qed.
Lemma al_copy_def v : allocs (copy_def v).
Proof. destruct v; simpl; try apply al_ret. apply al_bind; [apply al_copy_val|intros; apply al_ret]. Qed.
Lemma al_copy_params d : allocs (copy_params d).
Proof.
  induction d as [|[k v] d IH]; simpl; [apply al_ret|].
  apply al_bind; [apply al_copy_sval|intros]. apply al_bind; [assumption|intros; apply al_ret].
Qed.

Lemma evol_new V S a b c d e f w :
  evol (w_heap w) (w_heap (fst (new_rt1 V S a b c d e f w))) same_g.
Proof.
  unfold new_rt1. destruct V as [v|], S as [s|]; try (now apply evol_same).
  set (r0 := blank v s a b c d e f).
  assert (E : w_heap (fst ((do o <- add_obj r0 ;; set_monostatic o None ;;; ret o) w))
              = hput (w_heap (fst (add_obj r0 w))) (length (h_objs (w_heap w))) (fst (mono_rec None r0))).
  { unfold bind at 1. cbn [add_obj]. unfold bind at 1.
    assert (Hr : obj (w_heap (set_heap w (set_objs (w_heap w) (h_objs (w_heap w) ++ [r0])))) (length (h_objs (w_heap w))) = Ok r0).
    { apply obj_nth. simpl. rewrite nth_error_app2 by lia. now rewrite Nat.sub_diag. }
    destruct (eff_mono (length (h_objs (w_heap w))) None) as [He _].
    destruct (He _ _ Hr) as [H1 H2]. clear He.
    destruct (set_monostatic (length (h_objs (w_heap w))) None _) as [w' [x|e0]]; simpl in *; [|discriminate].
    exact H1. }
  rewrite E.
  eapply evol_ext; [|reflexivity].
  pose proof (al_add_obj r0 w) as (A1 & A2 & A3 & A4 & A5 & A6).
  unfold evol. do 4 (split; [assumption|]). split.
  - intros i r Hr. destruct (A5 i r Hr) as (r' & H1 & H2). exists r'. split; [|assumption].
    rewrite obj_hput_other; [assumption|]. intros <-. apply obj_nth in Hr.
    assert (length (h_objs (w_heap w)) < length (h_objs (w_heap w))); [|lia]. apply nth_error_Some. congruence.
  - unfold hput; simpl.
    assert (HL : forall (l : list rt1) o r, length (list_set l o r) = length l).
    { clear. induction l; intros [|o] r; simpl; auto. }
    rewrite HL, app_length. lia.
Qed.

Lemma evol_pickle o w :
  evol (w_heap w) (w_heap (fst (pickle_copy o w))) (fun i r => if o =? i then with_plots r false else r).
Proof.
  unfold pickle_copy. revert w. apply evol_then_al.
  - intros w. apply (evol_effect _ _ _ (upd_eff o (fun r => with_plots r false))).
  - intros _.
    apply al_bind; [apply al_frame; frgo|intros]. apply al_bind; [apply al_frame; frgo|intros].
    apply al_bind; [apply al_add_scat|intros]. apply al_bind; [apply al_frame; frgo|intros].
    apply al_bind; [apply al_add_scat|intros]. apply al_bind; [apply al_copy_val|intros].
    do 4 (apply al_bind; [apply al_copy_def|intros]).
    apply al_bind; [apply al_copy_params|intros].
    do 4 (apply al_bind; [apply al_copy_opt|intros]). apply al_add_obj.
Qed.

Definition is_world_op (p : op) : bool :=
  match p with OSetBackend _ | OMutate _ _ => true | _ => false end.

Theorem step_evol w p : is_world_op p = false ->
  evol (w_heap w) (w_heap (fst (step w p))) (step_obj p).
Proof.
  intros Hw. destruct p; try discriminate Hw; cbn [step step_obj]; rewrite fst_as_out; revert w.
  - apply al_add_arr.
  - apply al_add_scat.
  - apply evol_new.
  - apply evol_eff; [apply eff_geo|]. intros; eapply eff_geo_err; eassumption.
  - apply evol_effect, eff_mono.
  - apply evol_effect, eff_bi.
  - apply (evol_effect _ _ _ (eff_update o kw)).
  - apply (evol_eff _ _ _ (eff_set_def o p d)). intros w e E. unfold set_def.
    change ((clear_param_cache ;;; (do r <- get_obj o ;; put_obj o (with_def r p d))) w)
      with ((do r <- get_obj o ;; put_obj o (with_def r p d)) (fst (clear_param_cache w))).
    unfold bind, get_obj, gets. change (w_heap (fst (clear_param_cache w))) with (w_heap w). rewrite E. reflexivity.
  - apply (evol_effect _ _ _ (upd_eff o (fun r => with_flags r iq sg db))).
  - apply (evol_effect _ _ _ (upd_eff o (fun r => with_I0 r v))).
  - apply (evol_effect _ _ _ (upd_eff o (fun r => with_V r s))).
  - apply (evol_effect _ _ _ (upd_eff o (fun r => with_SRF r s))).
  - apply al_frame; frgo.
  - apply al_frame; frgo.
  - apply evol_catch_frame; [|intros e; destruct e; frgo].
    apply evol_then_frame; [apply (evol_effect _ _ _ (eff_update o kw))|intros; frgo].
  - apply evol_then_frame; [apply (evol_effect _ _ _ (eff_update o kw))|intros; frgo].
  - apply evol_then_frame; [apply (evol_effect _ _ _ (eff_update o kw))|intros; frgo].
  - apply evol_then_frame; [apply (evol_effect _ _ _ (eff_update o kw))|intros; frgo].
  - apply al_frame; frgo.
  - apply al_frame; frgo.
  - apply evol_pickle.
  - apply al_frame. unfold analyze_callable. frgo.
  - apply al_frame; frgo.
  - apply al_frame; frgo.
  - apply al_frame; frgo.
  - apply al_frame. frgo.
Qed.

(** *** what survives any call *)
Lemma step_obj_ex w p i r : obj (w_heap w) i = Ok r ->
  exists r', obj (w_heap (fst (step w p))) i = Ok r' /\ strip r' = strip (step_obj p i r).
Proof.
  intros Hr. destruct (is_world_op p) eqn:Hp.
  - exists r. destruct p; try discriminate Hp; cbn [step step_obj]; rewrite fst_as_out.
    + unfold set_lambda_backend. destruct (backend_of_str s); split; auto.
    + unfold mutate. destruct (nth_error (h_arrs (w_heap w)) aid); split; auto.
  - destruct (step_evol w p Hp) as (_ & _ & _ & _ & H & _). now apply H.
Qed.
Lemma step_arr w p a x : nth_error (h_arrs (w_heap w)) a = Some x -> (forall f, p <> OMutate a f) ->
  nth_error (h_arrs (w_heap (fst (step w p)))) a = Some x.
Proof.
  intros H Hm. destruct (is_world_op p) eqn:Hp.
  - destruct p; try discriminate Hp; cbn [step]; rewrite fst_as_out.
    + unfold set_lambda_backend. destruct (backend_of_str s); auto.
    + unfold mutate. destruct (nth_error (h_arrs (w_heap w)) aid) eqn:E; [|assumption]. simpl.
      rewrite nth_error_list_set. destruct (Nat.eqb_spec aid a); [subst; exfalso; eapply Hm; reflexivity|exact H].
  - destruct (step_evol w p Hp) as (_ & _ & H3 & _). now apply H3.
Qed.
Lemma step_scat w p a x : nth_error (h_scats (w_heap w)) a = Some x ->
  nth_error (h_scats (w_heap (fst (step w p)))) a = Some x.
Proof.
  intros H. destruct (is_world_op p) eqn:Hp.
  - destruct p; try discriminate Hp; cbn [step]; rewrite fst_as_out.
    + unfold set_lambda_backend. destruct (backend_of_str s); auto.
    + unfold mutate. destruct (nth_error (h_arrs (w_heap w)) aid); auto.
  - destruct (step_evol w p Hp) as (_ & _ & _ & H4 & _). now apply H4.
Qed.
Lemma step_be w p : h_be (w_heap (fst (step w p))) =
  match p with OSetBackend s => match backend_of_str s with Some b => b | None => h_be (w_heap w) end
             | _ => h_be (w_heap w) end.
Proof.
  destruct (is_world_op p) eqn:Hp.
  - destruct p; try discriminate Hp; cbn [step]; rewrite fst_as_out.
    + unfold set_lambda_backend. destruct (backend_of_str s); auto.
    + unfold mutate. destruct (nth_error (h_arrs (w_heap w)) aid); auto.
  - destruct (step_evol w p Hp) as (H1 & _). destruct p; auto; discriminate.
Qed.
