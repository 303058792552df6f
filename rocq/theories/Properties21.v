(** C44, C45, C61, C62, C63: the interactive widgets. *)
From Verif Require Export PlotFacts Wit20.
Open Scope string_scope. Open Scope nat_scope. Open Scope list_scope.

(** ** Sliders *)

(** the single slider of the parameter [key] with tuple [val] *)
Definition slider_of (key : string) (val : list entry) (s : slider) : Prop := init_sliders ((key, val) :: nil) = Ok ((key, s) :: nil).

(** *** C44.  Intended: the slider of (min, max) starts in the centre, and a fourth entry is its label. *)
Definition C44_intended : Prop :=
  (forall key mn mx, (mn <= mx)%R -> exists s, slider_of key (ENumb mn :: ENumb mx :: nil) s /\ sl_val s = ((mn + mx) / 2)%R) /\
  (forall key mn mx start name, (mn <= start <= mx)%R ->
     exists s, slider_of key (ENumb mn :: ENumb mx :: ENumb start :: EText name :: nil) s /\ sl_val s = start /\ sl_label s = name).

(** where it starts *)
Lemma slider_two key mn mx : slider_of key (ENumb mn :: ENumb mx :: nil) (mk_slider mn mx (clip mn mx ((mx - mn) / 2)) key).
Proof. reflexivity. Qed.
Lemma slider_three key mn mx start rest :
  slider_of key (ENumb mn :: ENumb mx :: ENumb start :: rest) (mk_slider mn mx (clip mn mx start) key).
Proof. reflexivity. Qed.
Lemma slider_of_fun key val s s' : slider_of key val s -> slider_of key val s' -> s = s'.
Proof. unfold slider_of. intros A B. rewrite A in B. now inversion B. Qed.
Lemma clip_half mn mx : (mn <= mx)%R -> clip mn mx ((mx - mn) / 2) = ((mn + mx) / 2)%R <-> (mn = 0 \/ mn = mx)%R.
Proof. intros H. unfold clip. destruct (Rle_dec ((mx - mn) / 2) mn); [lra|]. destruct (Rle_dec mx ((mx - mn) / 2)); lra. Qed.

Theorem C44_refuted : ~ C44_intended.
Proof.
  intros [H _]. destruct (H "tau" 1%R 3%R ltac:(lra)) as (s & A & B). rewrite <- (slider_of_fun _ _ _ _ (slider_two _ _ _) A) in B. cbn [sl_val] in B.
  apply clip_half in B; lra.
Qed.
Print Assumptions C44_refuted.
(** the centre is used exactly if the range starts at zero (or is a single value) *)
Theorem C44_centre_partial : forall key mn mx, (mn <= mx)%R ->
  exists s, slider_of key (ENumb mn :: ENumb mx :: nil) s /\ (sl_val s = ((mn + mx) / 2)%R <-> (mn = 0 \/ mn = mx)%R).
Proof. intros key mn mx H. eexists. split; [apply slider_two|]. cbn [sl_val]. now apply clip_half. Qed.
Print Assumptions C44_centre_partial.
(** the label is the parameter's name: a given label is used exactly if it is that name *)
Theorem C44_label_partial : forall key mn mx start name,
  exists s, slider_of key (ENumb mn :: ENumb mx :: ENumb start :: EText name :: nil) s /\ (sl_label s = name <-> name = key).
Proof. intros key mn mx start name. eexists. split; [apply slider_three|]. cbn [sl_label]. split; congruence. Qed.
Print Assumptions C44_label_partial.
Example C44_nonvacuous : (0 <= 4)%R /\ exists s, slider_of "tau" (ENumb 0 :: ENumb 4 :: nil) s /\ sl_val s = 2%R.
Proof. split; [lra|]. eexists. split; [apply slider_two|]. cbn [sl_val]. rewrite clip_in; lra. Qed.

(** *** C61.  Sliders exactly: one per parameter, in order; range, start and label; and after any sequence of moves every
    value lies in the range of its slider. *)
Definition start_value (val : list entry) (x : R) : Prop :=
  match val with
  | ENumb mn :: ENumb mx :: nil => x = clip mn mx ((mx - mn) / 2)
  | ENumb mn :: ENumb mx :: ENumb start :: _ => x = clip mn mx start
  | _ => False
  end.
Definition describes (kv : string * list entry) (ks : string * slider) : Prop :=
  fst ks = fst kv /\ sl_label (snd ks) = fst kv /\ start_value (snd kv) (sl_val (snd ks)) /\
  exists rest, snd kv = ENumb (sl_min (snd ks)) :: ENumb (sl_max (snd ks)) :: rest.
Lemma parse_make key val a s : parse_parameter key val = Ok a -> make_slider a = Ok s -> describes (key, val) (key, s).
Proof.
  intros P H. destruct val as [|[mn|] [|[mx|] rest]]; try discriminate. cbn [parse_parameter] in P. inversion P; subst a. unfold make_slider in H. cbn in H.
  destruct rest as [|[start|x] rest]; try discriminate; inversion H; subst s; repeat split; eexists; reflexivity.
Qed.
Theorem C61_sliders : forall kw sl, init_sliders kw = Ok sl -> Forall2 describes kw sl.
Proof.
  intros kw. unfold init_sliders, parse_parameters. induction kw as [|[key val] kw IH]; intros sl H.
  - cbn in H. inversion H. constructor.
  - cbn [rmap fst snd] in H. destruct (parse_parameter key val) as [a|] eqn:P; [cbn [rbind] in H|discriminate].
    destruct (rmap _ kw) as [ps|] eqn:Ep; [cbn [rbind] in *|discriminate]. cbn [rmap fst snd] in H.
    destruct (make_slider a) as [s|] eqn:Es; [cbn [rbind] in H|discriminate]. destruct (rmap _ ps) as [sl'|] eqn:E2; [cbn [rbind] in H|discriminate].
    inversion H; subst. constructor; [now apply (parse_make _ _ a)|]. now apply IH.
Qed.
Print Assumptions C61_sliders.
Definition within (ks : string * slider) : Prop := (sl_min (snd ks) <= sl_val (snd ks) <= sl_max (snd ks))%R.
Fixpoint final_widget (a : widget) (es : list event) : widget :=
  match es with [] => a | e :: es' => final_widget (next_widget a e) es' end.
Lemma next_within sl e : (forall ks, In ks sl -> (sl_min (snd ks) <= sl_max (snd ks))%R) -> Forall within sl -> Forall within (next_sliders sl e).
Proof.
  intros H F. destruct e as [k x|]; [|exact F]. unfold next_sliders. apply Forall_forall. intros ks Hk. apply in_map_iff in Hk. destruct Hk as (ks0 & E & Hin).
  rewrite Forall_forall in F. destruct (String.eqb k (fst ks0)); subst ks; [|now apply F]. unfold within. cbn [snd set_val sl_min sl_max sl_val]. apply clip_range. now apply H.
Qed.
Lemma next_ranges sl e : (forall ks, In ks sl -> (sl_min (snd ks) <= sl_max (snd ks))%R) -> forall ks, In ks (next_sliders sl e) -> (sl_min (snd ks) <= sl_max (snd ks))%R.
Proof.
  intros H ks Hk. destruct e as [k x|]; [|now apply H]. unfold next_sliders in Hk. apply in_map_iff in Hk. destruct Hk as (ks0 & E & Hin).
  destruct (String.eqb k (fst ks0)); subst ks; [|now apply H]. cbn [snd set_val sl_min sl_max]. now apply (H ks0).
Qed.
Theorem C61_in_range : forall kw sl es rg,
  init_sliders kw = Ok sl ->
  (forall key mn mx rest, In (key, ENumb mn :: ENumb mx :: rest) kw -> (mn <= mx)%R) ->
  Forall within (fst (final_widget (sl, rg) es)).
Proof.
  intros kw sl es rg H R. pose proof (C61_sliders _ _ H) as D.
  assert (R' : forall ks, In ks sl -> (sl_min (snd ks) <= sl_max (snd ks))%R).
  { clear H es rg. induction D as [|kv ks kw sl (E1 & E2 & E3 & rest & E4) D IH]; [intros ks []|]. intros ks' [<-|Hin].
    - destruct kv as [key val]. cbn [snd] in E4. subst val. eapply R. now left.
    - apply IH; [|exact Hin]. intros key mn mx rest' Hi. eapply R. right. exact Hi. }
  assert (W : Forall within sl).
  { clear H es rg R. revert R'. induction D as [|kv ks kw sl (E1 & E2 & E3 & rest & E4) D IH]; intros R'; [constructor|].
    constructor; [|apply IH; intros; apply R'; now right]. unfold within. pose proof (R' ks (or_introl eq_refl)) as Hr. rewrite E4 in E3. cbn in E3.
    destruct rest as [|[start|] rest]; [|rewrite E3; now apply clip_range|contradiction]. rewrite E3; now apply clip_range. }
  clear D H. revert sl rg R' W. induction es as [|e es IH]; intros sl rg R' W; [exact W|]. cbn [final_widget]. unfold next_widget. cbn [fst snd].
  apply IH; [now apply next_ranges|now apply next_within].
Qed.
Print Assumptions C61_in_range.
Example C61_nonvacuous : exists sl, init_sliders (("tau", ENumb 1 :: ENumb 3 :: nil) :: ("omega", ENumb 0 :: ENumb 1 :: ENumb 2 :: EText "Albedo" :: nil) :: nil) = Ok sl /\
  map (fun ks => sl_val (snd ks)) sl = (1 :: 1 :: nil)%R /\ map (fun ks => sl_label (snd ks)) sl = "tau" :: "omega" :: nil.
Proof.
  eexists. split; [reflexivity|]. cbn [map snd sl_val sl_label fst]. split; [|reflexivity]. unfold clip.
  repeat match goal with |- context [Rle_dec ?a ?b] => destruct (Rle_dec a b); try lra end; f_equal; f_equal; lra.
Qed.

(** ** C45 *)
Definition flags_of (r : rt1) : bool * bool * bool := (r_intQ r, r_sig0 r, r_dB r).
Lemma geo_loop_flags kw : forall r, flags_of (fst (geo_loop kw r)) = flags_of r.
Proof.
  induction kw as [|[a v] kw IH]; intros r; cbn [geo_loop]; [reflexivity|].
  destruct (existsb _ _); [reflexivity|]. destruct v; [|reflexivity]. rewrite IH. reflexivity.
Qed.
Lemma bi_step_flags a v r : flags_of (fst (bi_step a v r)) = flags_of r.
Proof. destruct v as [[q|]|]; reflexivity. Qed.
Lemma step_flags p o r : (forall o' a b c, p <> OSetFlags o' a b c) -> flags_of (step_obj p o r) = flags_of r.
Proof.
  intros Np. destruct p; cbn [step_obj]; try reflexivity; try (match goal with |- context [?x =? o] => destruct (x =? o) end; try reflexivity).
  - unfold geo_rec. destruct (ang_kw kw); [|reflexivity]. destruct (_ && _); [reflexivity|]. apply geo_loop_flags.
  - destruct p0 as [[q|]|]; reflexivity.
  - unfold bi_rec. do 4 (apply (seqf_inv (fun x => flags_of x = flags_of r)); [now rewrite bi_step_flags|intros]). assumption.
  - now destruct (Np o0 iq sg db).
Qed.
(** calls other than assigning the flags keep them *)
Lemma flags_step w p o iq sg db : (forall o' a b c, p <> OSetFlags o' a b c) -> obs_flags w o iq sg db -> obs_flags (fst (step w p)) o iq sg db.
Proof.
  intros Np (r & Hr & A & B & C). destruct (step_obj_ex w p o r Hr) as (r' & Hr' & E). exists r'. split; [exact Hr'|].
  pose proof (step_flags p o r Np) as F. unfold flags_of in F. injection F as F1 F2 F3.
  destruct (strip_fields _ _ E) as (_ & _ & _ & _ & _ & _ & G1 & G2 & G3). repeat split; congruence.
Qed.

(** "i" in contributions *)
Definition shows_interaction (contributions : string) : bool := if index 0 "i" contributions then true else false.

(** [with self._cx_set_intq(): body] for any body, whatever it returns, raises or assigns *)
Theorem C45_context : forall A (body : M A) w o contributions iq sg db,
  obs_flags w o iq sg db -> (forall u, has_obj (w_heap u) o -> has_obj (w_heap (fst (body u))) o) ->
  (exists sg' db', obs_flags (fst (cx_set_intq o contributions body w)) o iq sg' db') /\
  (exists u, obs_flags u o (shows_interaction contributions) sg db /\ snd (cx_set_intq o contributions body w) = snd (body u)).
Proof.
  intros A body w o contributions iq sg db (r & Hr & E1 & E2 & E3) Hb. unfold cx_set_intq.
  rewrite (bind_get _ _ _ _ Hr). cbn beta. rewrite (bind_get _ _ _ _ Hr). rewrite bind_put.
  set (r1 := with_flags r _ _ _). set (u := fst (put_obj o r1 w)).
  assert (Hu : obj (w_heap u) o = Ok r1) by (unfold u; rewrite w_heap_put; eapply obj_hput_same; exact Hr).
  assert (Fu : obs_flags u o (shows_interaction contributions) sg db) by (exists r1; split; [exact Hu|]; cbn; auto).
  pose proof (Hb u ltac:(apply has_obj_at; eauto)) as Ho. destruct (body u) as [v x] eqn:Ev. cbn [fst] in Ho.
  apply has_obj_at in Ho. destruct Ho as (r2 & Hr2). rewrite (bind_get _ _ _ _ Hr2). cbn [put_obj fst snd]. split.
  - exists (r_sig0 r2), (r_dB r2). exists (with_flags r2 (r_intQ r) (r_sig0 r2) (r_dB r2)). split; [|cbn; auto].
    change (obj (w_heap (fst (put_obj o (with_flags r2 (r_intQ r) (r_sig0 r2) (r_dB r2)) v))) o = Ok (with_flags r2 (r_intQ r) (r_sig0 r2) (r_dB r2))).
    rewrite w_heap_put. eapply obj_hput_same; exact Hr2.
  - exists u. split; [exact Fu|]. rewrite Ev. reflexivity.
Qed.
Print Assumptions C45_context.

Definition keeps_flags {A} (m : M A) (o : nat) : Prop := forall w iq sg db, obs_flags w o iq sg db -> obs_flags (fst (m w)) o iq sg db.
Lemma kf_bind {A B} (m : M A) (k : A -> M B) o : keeps_flags m o -> (forall a, keeps_flags (k a) o) -> keeps_flags (bind m k) o.
Proof. intros Hm Hk w iq sg db H. rewrite bind_fst. destruct (snd (m w)); [apply Hk|]; now apply Hm. Qed.
Lemma kf_gets {A} (f : heap -> res A) o : keeps_flags (gets f) o.
Proof. intros w iq sg db H. exact H. Qed.
Lemma kf_ret {A} (a : A) o : keeps_flags (ret a) o.
Proof. intros w iq sg db H. exact H. Qed.
Lemma kf_op p o : (forall o' a b c, p <> OSetFlags o' a b c) -> keeps_flags (call_op p) o.
Proof. intros N w iq sg db H. rewrite call_op_eq. cbn [fst]. now apply flags_step. Qed.
Lemma kf_arr a o : keeps_flags (add_arr a) o.
Proof. intros w iq sg db H. exact H. Qed.
Lemma kf_cx contributions o body : keeps_flags body o -> keeps_flags (@cx_set_intq out o contributions body) o.
Proof.
  intros Hb w iq sg db (r & Hr & E1 & E2 & E3). unfold cx_set_intq.
  rewrite (bind_get _ _ _ _ Hr). cbn beta. rewrite (bind_get _ _ _ _ Hr). rewrite bind_put.
  set (r1 := with_flags r _ _ _). set (u := fst (put_obj o r1 w)).
  assert (Hu : obj (w_heap u) o = Ok r1) by (unfold u; rewrite w_heap_put; eapply obj_hput_same; exact Hr).
  assert (Fu : obs_flags u o (shows_interaction contributions) sg db) by (exists r1; split; [exact Hu|]; cbn; auto).
  destruct (Hb u _ _ _ Fu) as (r2 & Hr2 & _ & F2 & F3). destruct (body u) as [v x] eqn:Ev. cbn [fst] in Hr2. rewrite (bind_get _ _ _ _ Hr2).
  cbn [put_obj fst snd]. exists (with_flags r2 (r_intQ r) (r_sig0 r2) (r_dB r2)). split; [|cbn; auto].
  change (obj (w_heap (fst (put_obj o (with_flags r2 (r_intQ r) (r_sig0 r2) (r_dB r2)) v))) o = Ok (with_flags r2 (r_intQ r) (r_sig0 r2) (r_dB r2))).
  rewrite w_heap_put. eapply obj_hput_same; exact Hr2.
Qed.

(** *** C45.  Whatever the state, the sliders and the outcome of the update, R.int_Q, R.sig0 and R.dB are afterwards
    what they were before. *)
Theorem C45_restores : forall w o contributions sl inc iq sg db,
  obs_flags w o iq sg db -> obs_flags (fst (analyze3d_update o contributions sl inc w)) o iq sg db.
Proof.
  intros w o contributions sl inc iq sg db. revert w iq sg db. change (keeps_flags (analyze3d_update o contributions sl inc) o).
  unfold analyze3d_update, getvals. apply kf_bind; [apply kf_op; discriminate|intros _].
  apply kf_bind; [apply kf_gets|intros tex]. apply kf_bind; [apply kf_gets|intros pex]. apply kf_bind; [apply kf_arr|intros i].
  unfold keep_ang, get_obj.
  apply kf_bind; [apply kf_bind; [apply kf_gets|intros; apply kf_ret]|intros vt].
  apply kf_bind; [apply kf_bind; [apply kf_gets|intros; apply kf_ret]|intros vp].
  apply kf_bind; [apply kf_op; discriminate|intros _]. apply kf_cx, kf_op. discriminate.
Qed.
Print Assumptions C45_restores.
(** a case in which the evaluation raises (tau is missing) while int_Q is switched *)
Definition hist3 (tau : bool) : list op :=
  ONewScat VI :: ONewScat SI :: ONew (Some 0) (Some 1) true false false None None (PNum (Fin 2)) ::
  OSetBi 0 None None (Some (FNum 0%Q)) None :: ONewArr (mk_nd (2 :: nil) (fun _ => Fin (1/2)%R)) ::
  OSetGeometry 0 (("t_0", Some (PArr 0)) :: ("t_ex", Some (PArr 0)) :: ("p_ex", Some (PArr 0)) :: nil) ::
  OUpdate 0 ((if tau then ("tau", PNum (Fin 1)) :: nil else nil) ++ ("omega", PNum (Fin (1/3))) :: ("NormBRDF", PNum (Fin (1/4))) :: nil) :: nil.
Example C45_nonvacuous :
  (let w := fst (run (init false true) (hist3 false)) in obs_flags w 0 true false false /\ exists e, snd (analyze3d_update 0 "ts" nil 45 w) = Err e) /\
  (let w := fst (run (init false true) (hist3 true)) in obs_flags w 0 true false false /\ exists a, snd (analyze3d_update 0 "ts" nil 45 w) = Ok (RetArr a)).
Proof.
  split; (split; [eexists; vm_compute; repeat split; reflexivity|]); eexists; vm_compute; reflexivity.
Qed.

(** ** C62, C63 *)
(** a widget with these slider names is attached to R: [w] is reached by a history of calls that only mention existing
    things, that does not reassign R.V or R.SRF and fixes angles by numbers; R computes its own fn-functions, which are not
    compiled yet or compiled for its present parameter names; and the slider names are parameters of R (as they are
    after the first update) *)
Definition attached (w : world) (o : nat) (sliders : list string) : Prop :=
  exists seng ps names,
    well_formed (init seng true) ps /\ adm nil (init seng true) (ps ++ OCalc o nil :: nil) /\
    Forall (fun q => ~ reassigns q /\ num_arg q) (ps ++ OCalc o nil :: nil) /\ w = fst (run (init seng true) ps) /\
    (exists r, obj (w_heap w) o = Ok r /\ r_fnevals_input r = None) /\
    names_current w o /\ current_names w o names /\ incl sliders names.
Lemma attached_upd w o N : attached w o N ->
  exists r, obj (w_heap w) o = Ok r /\ incl N (dkeys (r_params r)) /\ r_fnevals_input r = None /\ hclosed (w_heap w) /\ updatable w o.
Proof.
  intros (seng & ps & nm & W & A & F & E & (r & Hr & Hi) & Nc & (r' & Hr' & ->) & I). assert (r' = r) by congruence. subst r'.
  exists r. split; [exact Hr|]. split; [exact I|]. split; [exact Hi|]. split.
  - rewrite E. apply run_closed; [apply hclosed_init|exact W].
  - split; [|exact Nc]. exists seng, ps. auto.
Qed.
Lemma play_ov w o a es r : obj (w_heap w) o = Ok r -> incl (dkeys (fst a)) (dkeys (r_params r)) -> r_fnevals_input r = None -> updatable w o ->
  only_values o (dkeys (fst a)) w (play o a es w) /\ updatable (play o a es w) o.
Proof.
  intros Hr I Hi U. destruct (play_calls o es a w) as (qs & F & W & ->). eapply ov_run; eauto. apply ov_refl.
Qed.

(** *** C62.  What Analyze shows depends only on where the sliders stand and on the selected range: two sequences of
    slider moves and selections that end in the same positions show the same (values or exception). *)
Theorem C62_path_independent : forall w o a es1 es2,
  attached w o (dkeys (fst a)) -> final_widget a es1 = final_widget a es2 ->
  let b := final_widget a es1 in
  snd (analyze_update o (fst b) (snd b) (play o a es1 w)) = snd (analyze_update o (fst b) (snd b) (play o a es2 w)).
Proof.
  intros w o a es1 es2 At E b. destruct (attached_upd _ _ _ At) as (r & Hr & I & Hi & Hc & U).
  assert (K : forall es x, dkeys (fst (final_widget x es)) = dkeys (fst x)).
  { clear. induction es as [|e es IH]; intros x; [reflexivity|]. cbn [final_widget]. rewrite IH. unfold next_widget. cbn [fst]. apply next_sliders_keys. }
  destruct (play_ov w o a es1 r Hr I Hi U) as [V1 U1]. destruct (play_ov w o a es2 r Hr I Hi U) as [V2 U2].
  rewrite <- (K es1) in I, V1, V2. fold b in I, V1, V2.
  apply (same_shown w o (fst b) r Hr I Hi Hc); [split; assumption|split; assumption].
Qed.
Print Assumptions C62_path_independent.

(** the shown contributions are those R.calc() returns once the parameters are the slider values *)
Theorem C62_lines : forall w o sl rg c x,
  snd (analyze_update o sl rg w) = Ok (c, x) ->
  snd (step (fst (step w (OUpdate o (slider_vals sl)))) (OCalc o nil)) = c.
Proof.
  intros w o sl rg c x. unfold analyze_update, bind. rewrite !call_op_eq. destruct (op_res (snd (step w _))); [|discriminate].
  destruct (snd (step (fst (step w _)) _)) as [| | | | | |e]; cbn [op_res]; try discriminate;
    (destruct rg as [rp|]; [destruct (get_range_lines _ _ _ _ _) as [? [?|]]; try discriminate|]; unfold ret; cbn [snd]; intros H; now inversion H).
Qed.
Print Assumptions C62_lines.

(** *** C63.  Intended: after an update the parameters of R are the slider values. *)
Definition R_holds (w : world) (o : nat) (k : string) (v : nd xr) : Prop :=
  exists d, snd (step w (OParamDict o)) = RetDict d /\ dget d k = Some v.
Definition C63_intended : Prop := forall w o sl rg k s,
  attached w o (dkeys sl) -> NoDup (dkeys sl) -> dget sl k = Some s -> R_holds (fst (analyze_update o sl rg w)) o k (atleast_1d (scalar (Fin (sl_val s)))).
Lemma dget_dupdate_last {A} (kw : dict A) : forall d k v, NoDup (dkeys kw) -> In (k, v) kw -> dget (dupdate d kw) k = Some v.
Proof.
  induction kw as [|[k' v'] kw IH]; intros d k v N H; [destruct H|]. change (dget (dupdate (dset d k' v') kw) k = Some v).
  inversion N as [|? ? N1 N2]; subst. destruct H as [H|H]; [|now apply IH]. inversion H; subst.
  rewrite dget_dupdate_out by exact N1. apply dget_dset_same.
Qed.
Lemma calc_dict u o : good u (OCalc o nil) -> (exists r, obj (w_heap u) o = Ok r) -> forall d,
  snd (step (fst (step u (OCalc o nil))) (OParamDict o)) = RetDict d <-> snd (step u (OParamDict o)) = RetDict d.
Proof.
  intros G (r & Hr) d. destruct (calc_state u o r G Hr) as (r' & Hr' & _ & _ & C & F).
  apply (same_dict u (fst (step u (OCalc o nil))) (OCalc o nil) (OParamDict o) o (conf (w_heap u) r) (fnev_next (w_heap u) r) (fnev_next (w_heap u) r)).
  - exact G.
  - apply good_next; [exact G|intros J; exact I].
  - exists r. auto.
  - exists r'. auto.
Qed.
Section Holds.
  Context (w : world) (o : nat) (sl : dict slider) (r : rt1).
  Hypothesis (Hr : obj (w_heap w) o = Ok r) (HN : incl (dkeys sl) (dkeys (r_params r))) (Hi : r_fnevals_input r = None) (Hc : hclosed (w_heap w)) (Nd : NoDup (dkeys sl)).
  Lemma held u kw k pv v : only_values o (dkeys sl) w u -> updatable u o -> dkeys kw = dkeys sl -> has_kw (w_heap u) kw -> In (k, pv) kw -> deref (w_heap u) pv = Ok v ->
    R_holds (fst (step (fst (step u (OUpdate o kw))) (OCalc o nil))) o k (atleast_1d v).
  Proof.
    intros V U K X Hk Hv. destruct (later_dict w o (dkeys sl) r Hr Hc u kw V U X K) as (r' & P & H1 & _ & _ & _ & _ & _ & d & Hd & Gd).
    destruct (ov_upd w u o (dkeys sl) r Hr HN V U kw) as (V' & T & _); [rewrite K; apply incl_refl|exact X|].
    exists d. split.
    - apply calc_dict; [now apply tidy_good|destruct (ov_obj _ _ _ _ V' r Hr) as (? & ? & ? & _); eauto|exact Hd].
    - rewrite Gd. rewrite (dget_dupdate_last _ _ k (S1d pv)).
      + cbn [sderef]. rewrite Hv. reflexivity.
      + rewrite dkeys_map, K. exact Nd.
      + apply in_map_iff. exists (k, pv). auto.
  Qed.
End Holds.
(** it is so without a selected range, whether or not the evaluation succeeds *)
Theorem C63_no_range_partial : forall w o sl k s,
  attached w o (dkeys sl) -> NoDup (dkeys sl) -> dget sl k = Some s -> R_holds (fst (analyze_update o sl None w)) o k (atleast_1d (scalar (Fin (sl_val s)))).
Proof.
  intros w o sl k s At Nd Hk. destruct (attached_upd _ _ _ At) as (r & Hr & I & Hi & Hc & U).
  assert (E : fst (analyze_update o sl None w) = fst (step (fst (step w (OUpdate o (slider_vals sl)))) (OCalc o nil))).
  { unfold analyze_update, bind. rewrite !call_op_eq. rewrite (update_out _ _ _ _ Hr). cbn [op_res]. destruct (op_res _); reflexivity. }
  rewrite E. apply (held w o sl r Hr I Hc Nd w (slider_vals sl) k (PNum (Fin (sl_val s)))); auto.
  - apply ov_refl.
  - apply slider_vals_keys.
  - apply slider_vals_exist.
  - apply dget_dict_In in Hk. unfold slider_vals. apply in_map_iff. exists (k, s). auto.
Qed.
Print Assumptions C63_no_range_partial.
(** with a selected range R is left with the columns of sample values, once the lines could be evaluated *)
Theorem C63_range : forall w o sl rp k s c,
  attached w o (dkeys sl) -> NoDup (dkeys sl) -> dget sl k = Some s -> In rp (dkeys sl) ->
  snd (step (fst (step w (OUpdate o (slider_vals sl)))) (OCalc o nil)) = RetArr c ->
  R_holds (fst (analyze_update o sl (Some rp) w)) o k
    (if String.eqb rp k then col_linspace 20 (sl_min s) (sl_max s) else col_full 20 (sl_val s)).
Proof.
  intros w o sl rp k s c At Nd Hk Hrp Hcalc. destruct (attached_upd _ _ _ At) as (r & Hr & I & Hi & Hc & U).
  set (v := fst (step (fst (step w (OUpdate o (slider_vals sl)))) (OCalc o nil))).
  assert (Qv : only_values o (dkeys sl) w v /\ updatable v o).
  { destruct (ov_upd w w o (dkeys sl) r Hr I (ov_refl _ _ _) U (slider_vals sl)) as [V1 U1]; [rewrite slider_vals_keys; apply incl_refl|apply slider_vals_exist|].
    eapply ov_calc; eassumption. }
  assert (E : fst (analyze_update o sl (Some rp) w) = fst (get_range_lines o 20 rp sl v)).
  { unfold analyze_update. rewrite bind_fst, call_op_eq. cbn [fst snd]. rewrite (update_out _ _ _ _ Hr). cbn [op_res].
    rewrite bind_fst, call_op_eq. cbn [fst snd]. rewrite Hcalc. cbn [op_res]. fold v. rewrite bind_fst. destruct (snd (get_range_lines _ _ _ _ _)); reflexivity. }
  rewrite E. clear E. unfold get_range_lines.
  assert (Hs : exists s0, dget sl rp = Some s0).
  { clear - Hrp. induction sl as [|[k' s'] sl IH]; [destruct Hrp|]. cbn [dget]. destruct (String.eqb_spec rp k'); [eauto|]. apply IH. destruct Hrp as [X|X]; [cbn in X; congruence|exact X]. }
  destruct Hs as (s0 & ->).
  destruct (co_sample o (dkeys sl) 20 rp sl v) as ((q & F & W & R) & d & D & K & X & _). destruct (sample_vals 20 rp sl v d D) as [_ S2].
  destruct Qv as [Vv Uv]. destruct (ov_run w o (dkeys sl) r q Hr I Hi F v W Vv Uv) as [Vy Uy]. rewrite <- R in Vy, Uy.
  rewrite bind_fst, D. set (y := fst (sample_kw 20 rp sl v)) in *. clearbody y.
  destruct (ov_obj _ _ _ _ Vy r Hr) as (ry & Py & Hy & _).
  rewrite bind_fst, call_op_eq. cbn [fst snd]. rewrite (update_out _ _ _ _ Hy). cbn [op_res]. rewrite call_op_eq. cbn [fst].
  apply dget_dict_In in Hk.
  assert (Z : exists pv, In (k, pv) d /\ deref (w_heap y) pv = Ok (sample_col 20 rp (k, s))).
  { clear - S2 Hk. induction S2 as [|ks kv l l' [E1 E2] F IH]; [destruct Hk|]. destruct Hk as [->|Hk].
    - destruct kv as [k' pv]. cbn [fst snd] in *. subst k'. exists pv. split; [now left|exact E2].
    - destruct (IH Hk) as (pv & H1 & H2). exists pv. split; [now right|exact H2]. }
  destruct Z as (pv & Z1 & Z2).
  pose proof (held w o sl r Hr I Hc Nd y d k pv _ Vy Uy K X Z1 Z2) as Hh. unfold sample_col in Hh. cbn [fst snd] in Hh.
  destruct (String.eqb rp k); exact Hh.
Qed.
Print Assumptions C63_range.

(** ** A concrete widget *)
Definition psl : dict slider := ("tau", mk_slider 1 3 2 "tau") :: ("omega", mk_slider 0 1 (1/2) "omega") :: nil.
Definition pt : nd xr := mk_nd (2 :: 1 :: nil) (fun _ => Fin (1/2)%R).
Definition wP : world := wQ false false pt (PNum (Fin (1/4))).
Lemma histQ_wf seng iq t x : well_formed (init seng true) (histQ seng iq t (PNum x)).
Proof.
  unfold histQ. cbn [well_formed]. unfold mentions_existing. cbn [target args_exist].
  repeat match goal with |- _ /\ _ => split end; try exact I.
  all: try (intros s [= <-]; unfold has_scat; destruct seng; vm_compute; lia).
  all: try (intros s E; discriminate E).
  all: try (intros s [= <-]; unfold has_obj; destruct seng; vm_compute; lia).
  - intros k v [E|[E|[]]]; injection E as <- <-; try exact I. destruct seng; vm_compute; lia.
  - intros k v [E|[E|[E|[]]]]; injection E as <- <-; exact I.
Qed.
Lemma wP_attached : attached wP 0 (dkeys psl).
Proof.
  destruct (wQ_tidy false false pt (PNum (Fin (1/4)))) as (seng0 & ps0 & _). clear.
  exists false, (histQ false false pt (PNum (Fin (1/4)))), ("bsf" :: "tau" :: "omega" :: "NormBRDF" :: nil).
  split; [apply histQ_wf|]. split; [|split; [|split; [reflexivity|]]].
  - unfold histQ. cbn [app]. repeat (split; [try exact I|]); try exact I; try apply adm_nil; intros [].
  - unfold histQ. cbn [app]. repeat (constructor; [split; [intros []|first [exact I|discriminate|repeat split; discriminate]]|]); constructor.
  - split; [eexists; vm_compute; split; reflexivity|]. split; [left; eexists; vm_compute; split; reflexivity|].
    split; [eexists; vm_compute; split; reflexivity|].
    intros s [<-|[<-|[]]]; cbn; auto.
Qed.
Lemma wP_calc : exists c, snd (step (fst (step wP (OUpdate 0 (slider_vals psl)))) (OCalc 0 nil)) = RetArr c.
Proof. eexists. vm_compute. reflexivity. Qed.
Lemma psl_nodup : NoDup (dkeys psl).
Proof. repeat constructor; cbn; intuition discriminate. Qed.

Theorem C63_refuted : ~ C63_intended.
Proof.
  intros H. destruct wP_calc as (c & Hc).
  pose proof (H wP 0 psl (Some "tau") "tau" _ wP_attached psl_nodup eq_refl) as (d1 & A1 & B1).
  pose proof (C63_range wP 0 psl "tau" "tau" _ c wP_attached psl_nodup eq_refl (or_introl eq_refl) Hc) as (d2 & A2 & B2).
  rewrite A1 in A2. inversion A2; subst d2. rewrite B1 in B2. apply (f_equal (fun o => match o with Some a => shp a | None => nil end)) in B2. cbn in B2. discriminate.
Qed.
Print Assumptions C63_refuted.

Example C62_nonvacuous : let es1 := EvSlide "tau" 1 :: EvRange (Some "omega") :: EvSlide "tau" 2 :: EvRange None :: nil in
  attached wP 0 (dkeys psl) /\ final_widget (psl, None) es1 = final_widget (psl, None) nil /\
  exists c, snd (analyze_update 0 psl None (play 0 (psl, None) nil wP)) = Ok (RetArr c, None).
Proof.
  split; [exact wP_attached|]. split.
  - cbn [final_widget]. unfold next_widget, psl. cbn. unfold set_val. cbn. replace (clip 1 3 2) with 2%R; [reflexivity|]. symmetry. apply clip_in; lra.
  - destruct wP_calc as (c & Hc). exists c. cbn [play]. unfold analyze_update, bind. rewrite !call_op_eq.
    destruct (attached_upd _ _ _ wP_attached) as (r & Hr & _). rewrite (update_out _ _ _ _ Hr). cbn [op_res]. rewrite Hc. reflexivity.
Qed.
Example C63_nonvacuous : attached wP 0 (dkeys psl) /\ NoDup (dkeys psl) /\ dget psl "tau" = Some (mk_slider 1 3 2 "tau") /\ In "tau" (dkeys psl).
Proof. split; [exact wP_attached|]. split; [exact psl_nodup|]. split; [reflexivity|]. now left. Qed.
