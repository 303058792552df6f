(** Facts about the widgets of plot.py: an update is a sequence of public calls on the object, and what such a
    sequence leaves unchanged. *)
From Verif Require Export Plot Closed Properties10 After.
Open Scope string_scope. Open Scope nat_scope. Open Scope list_scope.

(** ** Sliders *)
Lemma clip_range mn mx x : (mn <= mx)%R -> (mn <= clip mn mx x <= mx)%R.
Proof. intros H. unfold clip. destruct (Rle_dec x mn); [lra|]. destruct (Rle_dec mx x); lra. Qed.
Lemma clip_in mn mx x : (mn <= x <= mx)%R -> clip mn mx x = x.
Proof. intros H. unfold clip. destruct (Rle_dec x mn); [lra|]. destruct (Rle_dec mx x); lra. Qed.

Lemma rmap_In {A B} (f : A -> res B) l : forall l' y, rmap f l = Ok l' -> In y l' -> exists x, In x l /\ f x = Ok y.
Proof.
  induction l as [|a l IH]; intros l' y H Hy.
  - inversion H; subst. destruct Hy.
  - cbn [rmap] in H. destruct (f a) as [b|] eqn:Ea; [cbn [rbind] in H|discriminate].
    destruct (rmap f l) as [bs|] eqn:El; [cbn [rbind] in H|discriminate]. inversion H; subst.
    destruct Hy as [<-|Hy]; [exists a; split; [now left|assumption]|].
    destruct (IH _ _ eq_refl Hy) as (x & Hx & Ex). exists x. split; [now right|assumption].
Qed.

(** ** An update is a sequence of calls *)
Definition widget_op (o : nat) (N : list string) (p : op) : Prop :=
  match p with
  | ONewArr _ => True
  | OUpdate o' kw => o' = o /\ incl (dkeys kw) N
  | OCalc o' kw => o' = o /\ kw = []
  | _ => False
  end.
Fixpoint args_ok (w : world) (qs : list op) : Prop :=
  match qs with [] => True | p :: qs' => args_exist (w_heap w) p /\ args_ok (fst (step w p)) qs' end.
Lemma args_ok_app q1 : forall w q2, args_ok w q1 -> args_ok (fst (run w q1)) q2 -> args_ok w (q1 ++ q2).
Proof.
  induction q1 as [|p q1 IH]; intros w q2 H1 H2; [exact H2|]. destruct H1 as [A B]. rewrite run_cons in H2. cbn [fst] in H2.
  split; [exact A|]. now apply IH.
Qed.
Definition calls_at (o : nat) (N : list string) {A} (m : M A) (w : world) : Prop :=
  exists qs, Forall (widget_op o N) qs /\ args_ok w qs /\ fst (m w) = fst (run w qs).
Definition calls_of (o : nat) (N : list string) {A} (m : M A) : Prop := forall w, calls_at o N m w.
Lemma co_ret o N {A} (a : A) : calls_of o N (ret a).
Proof. intros w. exists []. split; [constructor|]. split; [exact I|reflexivity]. Qed.
Lemma co_fail o N {A} e : calls_of o N (@fail A e).
Proof. intros w. exists []. split; [constructor|]. split; [exact I|reflexivity]. Qed.
Lemma co_op o N p w : widget_op o N p -> args_exist (w_heap w) p -> calls_at o N (call_op p) w.
Proof.
  intros H Ha. exists [p]. split; [auto|]. split; [split; [exact Ha|exact I]|]. unfold call_op. cbn [run]. destruct (step w p). reflexivity.
Qed.
Lemma co_arr o N a : calls_of o N (add_arr a).
Proof. intros w. exists [ONewArr a]. split; [repeat constructor|]. split; [split; exact I|]. reflexivity. Qed.
Lemma co_bind o N {A B} (m : M A) (k : A -> M B) w : calls_at o N m w ->
  (forall a, snd (m w) = Ok a -> calls_at o N (k a) (fst (m w))) -> calls_at o N (bind m k) w.
Proof.
  intros (q1 & F1 & W1 & E1) Hk. unfold calls_at. rewrite bind_fst. destruct (snd (m w)) as [a|e] eqn:E; [|exists q1; auto].
  destruct (Hk a eq_refl) as (q2 & F2 & W2 & E2). exists (q1 ++ q2). split; [now apply Forall_app|].
  rewrite E1 in W2. split; [now apply args_ok_app|]. rewrite run_app, E2, E1. reflexivity.
Qed.
(** the arrays made for the samples *)
Lemma co_sample o N n rp sl : forall w, calls_at o N (sample_kw n rp sl) w /\
  exists d, snd (sample_kw n rp sl w) = Ok d /\ dkeys d = dkeys sl /\ has_kw (w_heap (fst (sample_kw n rp sl w))) d /\
    length (h_arrs (w_heap w)) <= length (h_arrs (w_heap (fst (sample_kw n rp sl w)))).
Proof.
  induction sl as [|ks sl IH]; intros w.
  - split; [apply co_ret|]. exists []. split; [reflexivity|]. split; [reflexivity|]. split; [intros k v []|]. apply le_n.
  - cbn [sample_kw].
    set (w1 := fst (add_arr (sample_col n rp ks) w)). destruct (IH w1) as (C1 & d & Ed & Kd & Hd & Ld).
    assert (Lw : length (h_arrs (w_heap w1)) = S (length (h_arrs (w_heap w)))) by (unfold w1, add_arr; cbn [fst w_heap set_heap h_arrs]; rewrite app_length; cbn [length]; lia).
    split.
    + apply co_bind; [apply co_arr|]. intros i Hi. fold w1. apply co_bind; [exact C1|]. intros d' _. apply co_ret.
    + unfold bind. assert (Ea : add_arr (sample_col n rp ks) w = (w1, Ok (length (h_arrs (w_heap w))))) by reflexivity.
      rewrite Ea. clearbody w1. clear Ea. destruct (sample_kw n rp sl w1) as [w2 r2]. cbn [fst snd] in *. rewrite Ed. cbn [ret].
      eexists. split; [reflexivity|]. unfold ret. cbn [fst]. split; [unfold dkeys in *; cbn [map fst]; now f_equal|]. split; [|lia].
      intros k v [E|Hin]; [|eapply Hd; eassumption]. inversion E; subst. cbn [has_val]. lia.
Qed.
Lemma slider_vals_keys sl : dkeys (slider_vals sl) = dkeys sl.
Proof. unfold slider_vals, dkeys. rewrite map_map. reflexivity. Qed.
Lemma slider_vals_exist h sl : has_kw h (slider_vals sl).
Proof. intros k v H. unfold slider_vals in H. apply in_map_iff in H. destruct H as (x & E & _). inversion E; subst. exact I. Qed.
Lemma nil_exist h : has_kw h [].
Proof. intros k v []. Qed.
Lemma co_range o n rp sl : calls_of o (dkeys sl) (get_range_lines o n rp sl).
Proof.
  intros w. unfold get_range_lines. destruct (dget sl rp); [|apply co_fail].
  destruct (co_sample o (dkeys sl) n rp sl w) as (C & d & Ed & Kd & Hd & _).
  apply co_bind; [exact C|]. intros d' E. assert (d' = d) by congruence. subst d'. apply co_bind.
  - apply co_op; [|exact Hd]. split; [reflexivity|]. rewrite Kd. apply incl_refl.
  - intros _ _. apply co_op; [split; reflexivity|apply nil_exist].
Qed.
Lemma co_update o sl rg : calls_of o (dkeys sl) (analyze_update o sl rg).
Proof.
  intros w. unfold analyze_update. apply co_bind.
  - apply co_op; [|apply slider_vals_exist]. split; [reflexivity|]. rewrite slider_vals_keys. apply incl_refl.
  - intros _ _. apply co_bind; [apply co_op; [split; reflexivity|apply nil_exist]|]. intros c _. destruct rg as [rp|]; [|apply co_ret].
    apply co_bind; [apply co_range|]. intros r _. apply co_ret.
Qed.
Lemma next_sliders_keys sl e : dkeys (next_sliders sl e) = dkeys sl.
Proof.
  destruct e; [|reflexivity]. unfold next_sliders, dkeys. rewrite map_map. apply map_ext. intros [k s]. cbn [fst]. destruct (String.eqb key k); reflexivity.
Qed.
Lemma play_calls o es : forall a w, exists qs, Forall (widget_op o (dkeys (fst a))) qs /\ args_ok w qs /\ play o a es w = fst (run w qs).
Proof.
  induction es as [|e es IH]; intros a w; [exists []; repeat split; constructor|]. cbn [play].
  destruct (co_update o (fst (next_widget a e)) (snd (next_widget a e)) w) as (q1 & F1 & W1 & E1). rewrite E1.
  destruct (IH (next_widget a e) (fst (run w q1))) as (q2 & F2 & W2 & E2).
  unfold next_widget in F1, F2. cbn [fst] in F1, F2. rewrite next_sliders_keys in F1, F2.
  exists (q1 ++ q2). split; [now apply Forall_app|]. split; [now apply args_ok_app|]. rewrite run_app. exact E2.
Qed.

(** ** What such calls leave unchanged *)
Definition updatable (w : world) (o : nat) : Prop := tidy w (OCalc o nil) /\ names_current w o.

(** [w'] comes from [w] by calls that change only values of parameters [N] of object [o] *)
Record only_values (o : nat) (N : list string) (w w' : world) : Prop := mk_ov {
  ov_be : h_be (w_heap w') = h_be (w_heap w);
  ov_seng : h_seng (w_heap w') = h_seng (w_heap w);
  ov_scats : h_scats (w_heap w') = h_scats (w_heap w);
  ov_arrs : exists ext, h_arrs (w_heap w') = h_arrs (w_heap w) ++ ext;
  ov_closed : hclosed (w_heap w) -> hclosed (w_heap w');
  ov_obj : forall r, obj (w_heap w) o = Ok r -> exists r' P, obj (w_heap w') o = Ok r' /\
    strip r' = strip (with_params r P) /\ dkeys P = dkeys (r_params r) /\
    forall s, ~ In s N -> dget P s = dget (r_params r) s }.

Lemma ov_refl o N w : only_values o N w w.
Proof.
  split; auto.
  - exists []. now rewrite app_nil_r.
  - intros r Hr. exists r, (r_params r). split; [assumption|]. split; [destruct r; reflexivity|]. auto.
Qed.
Lemma dset_keys {A} (d : dict A) k v : In k (dkeys d) -> dkeys (dset d k v) = dkeys d.
Proof.
  induction d as [|[k' v'] d IH]; intros H; [destruct H|]. cbn [dset]. destruct (String.eqb_spec k k') as [->|n]; [reflexivity|].
  unfold dkeys in *. cbn [map fst] in *. destruct H as [H|H]; [congruence|]. f_equal. now apply IH.
Qed.
Lemma dupdate_keys {A} (kw : dict A) : forall d, incl (dkeys kw) (dkeys d) -> dkeys (dupdate d kw) = dkeys d.
Proof.
  induction kw as [|[k v] kw IH]; intros d H; [reflexivity|]. change (dupdate d ((k, v) :: kw)) with (dupdate (dset d k v) kw).
  assert (K : dkeys (dset d k v) = dkeys d) by (apply dset_keys, H; now left).
  rewrite IH, K; [reflexivity|]. rewrite K. intros x Hx. apply H. now right.
Qed.
Lemma dget_dset_other {A} (d : dict A) k v s : s <> k -> dget (dset d k v) s = dget d s.
Proof.
  intros n. induction d as [|[k' v'] d IH]; cbn [dset dget].
  - destruct (String.eqb_spec s k); [contradiction|reflexivity].
  - destruct (String.eqb_spec k k') as [->|m]; cbn [dget]; [destruct (String.eqb_spec s k'); [contradiction|reflexivity]|].
    destruct (String.eqb s k'); [reflexivity|assumption].
Qed.
Lemma dget_dset_same {A} (d : dict A) k v : dget (dset d k v) k = Some v.
Proof.
  induction d as [|[k' v'] d IH]; cbn [dset dget]; [now rewrite String.eqb_refl|].
  destruct (String.eqb_spec k k') as [->|m]; cbn [dget]; [now rewrite String.eqb_refl|].
  destruct (String.eqb_spec k k'); [contradiction|assumption].
Qed.
Lemma dget_dupdate_out {A} (kw : dict A) : forall d s, ~ In s (dkeys kw) -> dget (dupdate d kw) s = dget d s.
Proof.
  induction kw as [|[k v] kw IH]; intros d s H; [reflexivity|]. change (dupdate d ((k, v) :: kw)) with (dupdate (dset d k v) kw).
  rewrite IH; [|intros X; apply H; now right]. apply dget_dset_other. intros ->. apply H. now left.
Qed.
(** where the keyword gives a value, the previous value does not matter *)
Lemma dget_dupdate_in {A} (kw : dict A) : forall d d' s, In s (dkeys kw) -> dget (dupdate d kw) s = dget (dupdate d' kw) s.
Proof.
  induction kw as [|[k v] kw IH]; intros d d' s H; [destruct H|].
  change (dget (dupdate (dset d k v) kw) s = dget (dupdate (dset d' k v) kw) s).
  destruct (in_dec string_dec s (dkeys kw)) as [i|n]; [now apply IH|].
  destruct H as [H|H]; [|contradiction]. cbn [fst] in H. subst s. rewrite !dget_dupdate_out by assumption. now rewrite !dget_dset_same.
Qed.

Lemma updatable_bsf w o r : good w (OCalc o nil) -> obj (w_heap w) o = Ok r -> In "bsf"%string (dkeys (r_params r)).
Proof. intros G Hr. destruct (good_eval _ _ G) as (H & _). eapply H. eassumption. Qed.

(** one call *)
Lemma step_update w o r kw : obj (w_heap w) o = Ok r -> w_heap (fst (step w (OUpdate o kw))) = hput (w_heap w) o (upd_rec r kw).
Proof. intros Hr. cbn [step]. rewrite fst_as_out. now destruct (proj1 (eff_update o kw) w r Hr) as [-> _]. Qed.

Lemma tidy_snoc w o q p : tidy w q -> (forall J, adm1 J (w_heap w) p) -> ~ reassigns p -> num_arg p -> J_after [] p = [] ->
  (forall J, adm1 J (w_heap (fst (step w p))) (OCalc o nil)) -> tidy (fst (step w p)) (OCalc o nil).
Proof.
  intros (seng & ps & A & F & ->) H1 H2 H3 _ H5. exists seng, (ps ++ p :: nil).
  apply adm_app in A. destruct A as [A _]. apply Forall_app in F. destruct F as [F _].
  split; [|split].
  - rewrite <- app_assoc. apply adm_app. split; [exact A|]. cbn [app adm]. split; [apply H1|]. split; [apply H5|exact I].
  - apply Forall_app. split; [apply Forall_app; split; [exact F|]|]; constructor; auto.
    split; [exact (fun x => x)|exact I].
  - rewrite run_app, run_cons. reflexivity.
Qed.
Lemma adm_calc_nil J h o : adm1 J h (OCalc o nil).
Proof. apply adm_nil. Qed.

Lemma up_to_date_params r r' P : strip r' = strip (with_params r P) -> r_fnev r' = r_fnev r -> dkeys P = dkeys (r_params r) ->
  up_to_date r -> up_to_date r'.
Proof.
  intros E Ef Ek U k Hk. rewrite Ef in Hk. rewrite (U k Hk). f_equal. rewrite <- Ek.
  change (dkeys (r_params (with_params r P)) = dkeys (r_params r')). f_equal. now injection E.
Qed.

Lemma fnev_compiled h r k : r_fnev r = None -> r_fnevals_input r = None -> fnev_next h r = Ok (Some k) ->
  c_vars k = fn_angle_names ++ dkeys (r_params r).
Proof.
  intros E1 E2 H. unfold fnev_next in H. rewrite E1, E2 in H. destruct (r_intQ r); [|discriminate]. unfold p_comp in H.
  destruct (fn_next h r) as [[f|]|]; try discriminate. cbn [rbind] in H.
  destruct (lambdify _ _ _ f) as [c|] eqn:L; [|discriminate]. cbn [rbind] in H. inversion H; subst.
  destruct (lambdify_Ok _ _ _ _ _ L) as (E & _). rewrite E. cbn [c_vars conf c_params]. now rewrite dkeys_map.
Qed.
Lemma strip_params r' r P : strip r' = strip (with_params r P) -> r_params r' = P.
Proof. intros E. change (r_params r' = r_params (with_params r P)). now injection E. Qed.
Lemma strip_with_params r r' P Q : strip r' = strip (with_params r P) -> strip (with_params r' Q) = strip (with_params r Q).
Proof. destruct r, r'. unfold strip, with_params, with_fn, with_fnev. cbn. intros E. injection E. intros. now subst. Qed.

Section OneCall.
  Context (w w' : world) (o : nat) (N : list string) (r : rt1).
  Hypothesis (Hr : obj (w_heap w) o = Ok r) (HN : incl N (dkeys (r_params r))) (Hi : r_fnevals_input r = None).
  Hypothesis (V : only_values o N w w') (U : updatable w' o).
  Lemma ov_new_arr a : only_values o N w (fst (step w' (ONewArr a))) /\ updatable (fst (step w' (ONewArr a))) o.
  Proof.
    destruct V as [V1 V2 V3 (ext & V4) Vc V5]. destruct U as [U1 U2]. split.
    - split; try assumption.
      + exists (ext ++ [a]). cbn [step]. rewrite fst_as_out. unfold add_arr. cbn [fst w_heap set_heap h_arrs]. rewrite V4. now rewrite app_assoc.
      + intros H. apply step_closed; [now apply Vc|]. split; [discriminate|exact I].
    - split.
      + apply (tidy_snoc _ _ _ _ U1); auto; try exact I; try (intros J; exact I); intros J; apply adm_calc_nil.
      + exact U2.
  Qed.
  Lemma ov_upd kw : incl (dkeys kw) N -> has_kw (w_heap w') kw -> only_values o N w (fst (step w' (OUpdate o kw))) /\ updatable (fst (step w' (OUpdate o kw))) o.
  Proof.
    intros Hk Hx. destruct V as [V1 V2 V3 V4 Vc V5]. destruct (V5 r Hr) as (r' & P & Hr' & Es & Ep & Eo). destruct U as [U1 U2].
    pose proof (strip_params _ _ _ Es) as EP.
    assert (Hinc : incl (dkeys kw) (dkeys (r_params r'))) by (rewrite EP, Ep; eapply incl_tran; eassumption).
    pose proof (step_update w' o r' kw Hr') as E.
    pose proof (updatable_bsf _ _ _ (tidy_good _ _ U1) Hr') as B.
    assert (Eu : upd_rec r' kw = with_params r' (dupdate P (map (fun kv => (fst kv, S1d (snd kv))) kw))).
    { unfold upd_rec. rewrite (upd_kw_bsf _ _ B), EP. reflexivity. }
    assert (Ho : obj (w_heap (fst (step w' (OUpdate o kw)))) o = Ok (upd_rec r' kw)) by (rewrite E; eapply obj_hput_same; eassumption).
    assert (Ek : dkeys (dupdate P (map (fun kv => (fst kv, S1d (snd kv))) kw)) = dkeys P).
    { apply dupdate_keys. rewrite dkeys_map. rewrite <- EP. exact Hinc. }
    split; [split|split].
    - rewrite E. exact V1.
    - rewrite E. exact V2.
    - rewrite E. exact V3.
    - rewrite E. exact V4.
    - intros H. apply step_closed; [now apply Vc|]. split; [intros o' Eo'; inversion Eo'; subst; apply has_obj_at; eauto|exact Hx].
    - intros r0 Hr0. assert (r0 = r) by congruence. subst r0. eexists. eexists. split; [exact Ho|]. rewrite Eu.
      split; [eapply strip_with_params; eassumption|]. split; [congruence|].
      intros s Hs. rewrite dget_dupdate_out; [now apply Eo|]. rewrite dkeys_map. intros X. apply Hs, Hk, X.
    - apply (tidy_snoc _ _ _ _ U1); auto; try (intros J; apply adm_calc_nil); try exact I.
      intros J. cbn [adm1]. intros _ r0 Hr0. assert (r0 = r') by congruence. subst r0. exact Hinc.
    - apply (up_to_date_current _ _ _ Ho). apply (up_to_date_current _ _ _ Hr') in U2.
      intros k Hk'. rewrite Eu in Hk'. cbn [with_params r_fnev] in Hk'. rewrite (U2 k Hk'). rewrite Eu. cbn [with_params r_params]. rewrite Ek. congruence.
  Qed.
  Lemma ov_calc : only_values o N w (fst (step w' (OCalc o nil))) /\ updatable (fst (step w' (OCalc o nil))) o.
  Proof.
    destruct V as [V1 V2 V3 V4 Vc V5]. destruct (V5 r Hr) as (r' & P & Hr' & Es & Ep & Eo). destruct U as [U1 U2].
    pose proof (tidy_good _ _ U1) as G.
    destruct (good_eval _ _ G) as (Hb & _ & E).
    destruct (eval_calc (w_heap w') o r' nil Hr') as [_ HA]. rewrite (upd_rec_nil _ _ _ Hb Hr') in HA.
    destruct (obj_after _ _ _ _ _ Hr' HA) as (r2 & R1 & R2 & R3 & R4). destruct HA as (rx & E2 & _).
    rewrite <- E in R1, R3, R4. rewrite E2 in E.
    assert (Es2 : strip r2 = strip (with_params r P)) by congruence.
    split; [split|split].
    - rewrite E. exact V1.
    - rewrite E. exact V2.
    - rewrite E. exact V3.
    - rewrite E. exact V4.
    - intros H. apply step_closed; [now apply Vc|]. split; [intros o' Eo'; inversion Eo'; subst; apply has_obj_at; eauto|apply nil_exist].
    - intros r0 Hr0. assert (r0 = r) by congruence. subst r0. exists r2, P. auto.
    - apply (tidy_snoc _ _ _ _ U1); auto; try (intros J; apply adm_calc_nil); exact I.
    - apply (up_to_date_current _ _ _ R1). apply (up_to_date_current _ _ _ Hr') in U2.
      intros k Hk. assert (X : fnev_next (w_heap w') r' = Ok (Some k)).
      { rewrite <- R4. unfold fnev_next. now rewrite Hk. }
      rewrite (strip_params _ _ _ Es2), <- (strip_params _ _ _ Es). destruct (r_fnev r') as [k'|] eqn:Ek'.
      + unfold fnev_next in X. rewrite Ek' in X. inversion X; subst. now apply U2.
      + eapply fnev_compiled; [exact Ek'| |exact X].
        destruct (strip_fields _ _ Es) as (_ & _ & _ & _ & _ & F & _). rewrite F. exact Hi.
  Qed.
End OneCall.

Lemma ov_run w o N r qs : obj (w_heap w) o = Ok r -> incl N (dkeys (r_params r)) -> r_fnevals_input r = None ->
  Forall (widget_op o N) qs -> forall w', args_ok w' qs -> only_values o N w w' -> updatable w' o ->
  only_values o N w (fst (run w' qs)) /\ updatable (fst (run w' qs)) o.
Proof.
  intros Hr HN Hi F. induction F as [|p qs Hp F IH]; intros w' W V U; [auto|]. rewrite run_cons. cbn [fst]. destruct W as [Wp W].
  enough (X : only_values o N w (fst (step w' p)) /\ updatable (fst (step w' p)) o) by (destruct X; now apply IH).
  destruct p; try contradiction; cbn [widget_op] in Hp.
  - eapply ov_new_arr; eassumption.
  - destruct Hp as [-> Hk]. eapply ov_upd; eassumption.
  - destruct Hp as [-> ->]. eapply ov_calc; eassumption.
Qed.

(** ** After setting the parameters [N], two such states have the same configuration *)
Lemma deref_ext h h' ext v : h_arrs h' = h_arrs h ++ ext -> has_val h v -> deref h' v = deref h v.
Proof.
  intros E H. destruct v as [x|i]; [reflexivity|]. cbn in H |- *. rewrite E, nth_error_app1 by exact H. reflexivity.
Qed.
Lemma dget_map {A B} (f : A -> B) (d : dict A) s : dget (map (fun kv => (fst kv, f (snd kv))) d) s = option_map f (dget d s).
Proof. induction d as [|[k v] d IH]; [reflexivity|]. cbn [map fst snd dget]. destruct (String.eqb s k); [reflexivity|exact IH]. Qed.
Lemma dget_dict_In {A} (d : dict A) s v : dget d s = Some v -> In (s, v) d.
Proof.
  induction d as [|[k x] d IH]; [discriminate|]. cbn [dget]. destruct (String.eqb_spec s k) as [->|n]; [|right; auto].
  intros H. inversion H; subst. now left.
Qed.
Lemma rmap_total {A B} (f : A -> res B) l : (forall x, In x l -> exists y, f x = Ok y) -> exists l', rmap f l = Ok l'.
Proof.
  induction l as [|a l IH]; intros H; [eexists; reflexivity|]. cbn [rmap]. destruct (H a (or_introl eq_refl)) as (y & ->).
  destruct (IH (fun x Hx => H x (or_intror Hx))) as (l' & ->). eexists; reflexivity.
Qed.
Lemma params_nd_get h r d s : params_nd h r = Ok d ->
  dget d s = match dget (r_params r) s with Some v => match sderef h v with Ok a => Some a | Err _ => None end | None => None end.
Proof.
  unfold params_nd. generalize (r_params r) as P. intros P. revert d. induction P as [|[k v] P IH]; intros d H.
  - inversion H; subst. reflexivity.
  - cbn [rmap fst snd] in H. destruct (sderef h v) as [a|] eqn:Ea; [cbn [rbind] in H|discriminate].
    destruct (rmap _ P) as [d'|] eqn:Ed; [cbn [rbind] in H|discriminate]. inversion H; subst. cbn [dget].
    destruct (String.eqb s k); [now rewrite Ea|]. now apply IH.
Qed.

Lemma strip_with_fields r' r P : strip r' = strip (with_params r P) ->
  r_V r' = r_V r /\ r_SRF r' = r_SRF r /\ r_intQ r' = r_intQ r /\ r_sig0 r' = r_sig0 r /\ r_dB r' = r_dB r /\ r_fn_input r' = r_fn_input r /\
  r_fnevals_input r' = r_fnevals_input r /\ r_I0 r' = r_I0 r /\ r_def r' = r_def r /\ r_params r' = P /\ r_fixed r' = r_fixed r /\ r_mono r' = r_mono r /\
  r_ang r' = r_ang r /\ r_geom r' = r_geom r.
Proof. destruct r, r'. unfold strip, with_params, with_fn, with_fnev. cbn. intros E. injection E. intros. subst. repeat split. Qed.
Lemma read_ang_later w w' o N r r' a : only_values o N w w' -> closed (w_heap w) r -> r_ang r' = r_ang r -> r_mono r' = r_mono r ->
  read_ang (w_heap w') r' a = read_ang (w_heap w) r a.
Proof.
  intros V C Ea Em. destruct (ov_arrs _ _ _ _ V) as (ext & E).
  assert (Q : forall b, stored_ang (w_heap w') r' b = stored_ang (w_heap w) r b).
  { intros b. unfold stored_ang. rewrite Ea. destruct (r_ang r b) as [v|] eqn:Ev; [|reflexivity].
    rewrite (deref_ext _ _ _ _ E); [reflexivity|]. eapply cl_ang; eassumption. }
  unfold read_ang. rewrite !Q, Em. reflexivity.
Qed.
Lemma read_angle_out w o a r : obj (w_heap w) o = Ok r -> snd (step w (OReadAngle o a)) = outA (read_ang (w_heap w) r a).
Proof. intros H. cbn [step]. rewrite snd_as_out. unfold m_ang, gets. cbn [snd]. rewrite H. reflexivity. Qed.
Definition same_kw (h1 h2 : heap) (kw1 kw2 : dict pyval) : Prop :=
  Forall2 (fun a b => fst a = fst b /\ deref h1 (snd a) = deref h2 (snd b)) kw1 kw2.
Lemma same_kw_keys h1 h2 kw1 kw2 : same_kw h1 h2 kw1 kw2 -> dkeys kw1 = dkeys kw2.
Proof. induction 1 as [|a b l l' [E _] _ IH]; [reflexivity|]. unfold dkeys in *. cbn [map]. now f_equal. Qed.
Lemma dget_same_kw h1 h2 kw1 kw2 s : same_kw h1 h2 kw1 kw2 -> In s (dkeys kw1) -> forall d1 d2,
  exists v1 v2, dget (dupdate d1 (map (fun kv => (fst kv, S1d (snd kv))) kw1)) s = Some (S1d v1) /\
    dget (dupdate d2 (map (fun kv => (fst kv, S1d (snd kv))) kw2)) s = Some (S1d v2) /\ deref h1 v1 = deref h2 v2.
Proof.
  induction 1 as [|[k1 v1] [k2 v2] l l' [E Hv] F IH]; intros H d1 d2; [destruct H|]. cbn [fst snd] in E, Hv. subst k2.
  cbn [map fst snd]. change (dupdate d1 ((k1, S1d v1) :: map (fun kv => (fst kv, S1d (snd kv))) l)) with (dupdate (dset d1 k1 (S1d v1)) (map (fun kv => (fst kv, S1d (snd kv))) l)).
  change (dupdate d2 ((k1, S1d v2) :: map (fun kv => (fst kv, S1d (snd kv))) l')) with (dupdate (dset d2 k1 (S1d v2)) (map (fun kv => (fst kv, S1d (snd kv))) l')).
  destruct (in_dec string_dec s (dkeys l)) as [i|n]; [now apply IH|].
  destruct H as [H|H]; [|contradiction]. cbn [fst] in H. subst s. exists v1, v2.
  rewrite !dget_dupdate_out; [|rewrite dkeys_map; rewrite <- (same_kw_keys _ _ _ _ F); assumption|rewrite dkeys_map; assumption].
  rewrite !dget_dset_same. auto.
Qed.

Section LaterDict.
  Context (w : world) (o : nat) (N : list string) (r : rt1).
  Hypothesis (Hr : obj (w_heap w) o = Ok r) (Hc : hclosed (w_heap w)).
  Lemma later_dict w' kw : only_values o N w w' -> updatable w' o -> has_kw (w_heap w') kw -> dkeys kw = N ->
    exists r' P, obj (w_heap w') o = Ok r' /\ dkeys P = dkeys (r_params r) /\ strip r' = strip (with_params r P) /\
      (forall s, ~ In s N -> dget P s = dget (r_params r) s) /\ w_heap (fst (step w' (OUpdate o kw))) = hput (w_heap w') o (upd_rec r' kw) /\
      upd_rec r' kw = with_params r' (dupdate P (map (fun kv => (fst kv, S1d (snd kv))) kw)) /\
      exists d, snd (step (fst (step w' (OUpdate o kw))) (OParamDict o)) = RetDict d /\
        forall s, dget d s = match dget (dupdate P (map (fun kv => (fst kv, S1d (snd kv))) kw)) s with
                             | Some v => match sderef (w_heap w') v with Ok a => Some a | Err _ => None end | None => None end.
  Proof.
    intros V U X K. destruct (ov_obj _ _ _ _ V r Hr) as (r' & P & Hr' & Es & Ep & Eo). exists r', P. do 4 (split; [assumption|]).
    pose proof (step_update w' o r' kw Hr') as E. split; [exact E|].
    assert (Eu : upd_rec r' kw = with_params r' (dupdate P (map (fun kv => (fst kv, S1d (snd kv))) kw))).
    { unfold upd_rec. rewrite (upd_kw_bsf _ _ (updatable_bsf _ _ _ (tidy_good _ _ (proj1 U)) Hr')), (strip_params _ _ _ Es). reflexivity. }
    split; [exact Eu|]. set (u := fst (step w' (OUpdate o kw))) in *.
    assert (Ho : obj (w_heap u) o = Ok (upd_rec r' kw)) by (rewrite E; eapply obj_hput_same; eassumption).
    assert (Hcu : hclosed (w_heap u)).
    { apply step_closed; [now apply (ov_closed _ _ _ _ V)|]. split; [intros o' Eo'; inversion Eo'; subst; apply has_obj_at; eauto|exact X]. }
    pose proof (Hcu _ _ Ho) as Cu.
    destruct (rmap_total (fun kv => let* a := sderef (w_heap u) (snd kv) in Ok (fst kv, a)) (r_params (upd_rec r' kw))) as (d & Ed).
    { intros [k v] Hin. pose proof (cl_par _ _ Cu _ _ Hin) as Hv. apply has_val_deref in Hv. destruct Hv as (a & Ha).
      destruct v as [v|v]; cbn [sv_val sderef snd fst] in *; rewrite Ha; eexists; reflexivity. }
    exists d. split.
    - cbn [step]. rewrite snd_as_out. unfold gets. cbn [snd]. rewrite Ho. cbn [rbind]. unfold params_nd. now rewrite Ed.
    - intros s. rewrite (params_nd_get _ _ _ s Ed). rewrite Eu. cbn [with_params r_params]. destruct (dget _ s) as [v|]; [|reflexivity].
      rewrite E. destruct v; reflexivity.
  Qed.
End LaterDict.

Section SameAfter.
  Context (w w1 w2 : world) (o : nat) (N : list string) (r : rt1) (kw1 kw2 : dict pyval).
  Hypothesis (Hr : obj (w_heap w) o = Ok r) (HN : incl N (dkeys (r_params r))) (Hi : r_fnevals_input r = None) (Hc : hclosed (w_heap w)).
  Hypothesis (V1 : only_values o N w w1) (U1 : updatable w1 o) (V2 : only_values o N w w2) (U2 : updatable w2 o).
  Hypothesis (Q : same_kw (w_heap w1) (w_heap w2) kw1 kw2) (K1 : dkeys kw1 = N) (X1 : has_kw (w_heap w1) kw1) (X2 : has_kw (w_heap w2) kw2).
  Lemma same_after : same_configuration (fst (step w1 (OUpdate o kw1))) o (fst (step w2 (OUpdate o kw2))) o.
  Proof.
    assert (K2 : dkeys kw2 = N) by (rewrite <- (same_kw_keys _ _ _ _ Q); exact K1).
    destruct (later_dict w o N r Hr Hc w1 kw1 V1 U1 X1 K1) as (r1 & P1 & H1 & Ep1 & Es1 & Eo1 & E1 & Eu1 & d1 & D1 & G1).
    destruct (later_dict w o N r Hr Hc w2 kw2 V2 U2 X2 K2) as (r2 & P2 & H2 & Ep2 & Es2 & Eo2 & E2 & Eu2 & d2 & D2 & G2).
    assert (Ho1 : obj (w_heap (fst (step w1 (OUpdate o kw1)))) o = Ok (upd_rec r1 kw1)) by (rewrite E1; eapply obj_hput_same; eassumption).
    assert (Ho2 : obj (w_heap (fst (step w2 (OUpdate o kw2)))) o = Ok (upd_rec r2 kw2)) by (rewrite E2; eapply obj_hput_same; eassumption).
    exists (upd_rec r1 kw1), (upd_rec r2 kw2). split; [exact Ho1|]. split; [exact Ho2|].
    destruct (strip_with_fields _ _ _ Es1) as (A1 & A2 & A3 & A4 & A5 & A6 & A7 & A8 & A9 & A10 & A11 & A12 & A13 & A14).
    destruct (strip_with_fields _ _ _ Es2) as (B1 & B2 & B3 & B4 & B5 & B6 & B7 & B8 & B9 & B10 & B11 & B12 & B13 & B14).
    pose proof (Hc _ _ Hr) as Cl. destruct (ov_arrs _ _ _ _ V1) as (x1 & Ar1). destruct (ov_arrs _ _ _ _ V2) as (x2 & Ar2).
    assert (DR : forall v, has_val (w_heap w) v -> deref (w_heap w1) v = deref (w_heap w2) v).
    { intros v Hv. rewrite (deref_ext _ _ _ _ Ar1 Hv), (deref_ext _ _ _ _ Ar2 Hv). reflexivity. }
    assert (Sc : forall x, scat_at (w_heap w1) x = scat_at (w_heap w2) x).
    { intros x. unfold scat_at. rewrite (ov_scats _ _ _ _ V1), (ov_scats _ _ _ _ V2). reflexivity. }
    rewrite Eu1, Eu2. cbn [with_params r_V r_SRF r_intQ r_sig0 r_dB r_fn_input r_fnevals_input r_I0 r_def r_geom].
    rewrite A1, A2, A3, A4, A5, A6, A7, A8, A9, A14, B1, B2, B3, B4, B5, B6, B7, B8, B9, B14.
    split; [rewrite E1, E2; transitivity (h_be (w_heap w)); [apply V1|symmetry; apply V2]|].
    split; [rewrite E1, E2; transitivity (h_seng (w_heap w)); [apply V1|symmetry; apply V2]|].
    split; [rewrite E1, E2; apply Sc|]. split; [rewrite E1, E2; apply Sc|].
    do 4 (split; [reflexivity|]). split; [exact Hi|]. split; [exact Hi|].
    split; [rewrite E1, E2; apply DR; apply Cl|].
    split.
    { intros p. rewrite E1, E2. destruct (r_def r p) as [v| |] eqn:Ed; try reflexivity. cbn [cdef_of]. f_equal. apply DR. eapply cl_def; eassumption. }
    split; [reflexivity|]. split.
    { intros a. rewrite (read_angle_out _ _ _ _ Ho1), (read_angle_out _ _ _ _ Ho2). f_equal. rewrite E1, E2.
      change (read_ang (w_heap w1) (upd_rec r1 kw1) a = read_ang (w_heap w2) (upd_rec r2 kw2) a).
      rewrite (read_ang_later w w1 o N r _ a V1 Cl), (read_ang_later w w2 o N r _ a V2 Cl); try assumption; try reflexivity. }
    exists d1, d2. split; [exact D1|]. split; [exact D2|]. intros s. rewrite G1, G2.
    destruct (in_dec string_dec s N) as [i|n].
    - destruct (dget_same_kw _ _ _ _ s Q ltac:(rewrite K1; exact i) P1 P2) as (v1 & v2 & -> & -> & Ev). cbn [sderef]. rewrite Ev. reflexivity.
    - rewrite !dget_dupdate_out by (rewrite dkeys_map; congruence). rewrite Eo1, Eo2 by assumption.
      destruct (dget (r_params r) s) as [v|] eqn:Ev; [|reflexivity]. apply dget_dict_In in Ev. pose proof (cl_par _ _ Cl _ _ Ev) as Hv.
      destruct v as [v|v]; cbn [sv_val sderef] in *; rewrite (DR v Hv); reflexivity.
  Qed.
  Lemma same_calc : snd (step (fst (step w1 (OUpdate o kw1))) (OCalc o nil)) = snd (step (fst (step w2 (OUpdate o kw2))) (OCalc o nil)).
  Proof.
    assert (K2 : dkeys kw2 = N) by (rewrite <- (same_kw_keys _ _ _ _ Q); exact K1).
    destruct (ov_upd w w1 o N r Hr HN V1 U1 kw1) as (_ & T1 & N1); [rewrite K1; apply incl_refl|exact X1|].
    destruct (ov_upd w w2 o N r Hr HN V2 U2 kw2) as (_ & T2 & N2); [rewrite K2; apply incl_refl|exact X2|].
    apply C12_calc_partial; auto. apply same_after.
  Qed.
End SameAfter.

(** ** The samples *)
Lemma sample_vals n rp sl : forall w d, snd (sample_kw n rp sl w) = Ok d ->
  (forall i x, nth_error (h_arrs (w_heap w)) i = Some x -> nth_error (h_arrs (w_heap (fst (sample_kw n rp sl w)))) i = Some x) /\
  Forall2 (fun ks kv => fst ks = fst kv /\ deref (w_heap (fst (sample_kw n rp sl w))) (snd kv) = Ok (sample_col n rp ks)) sl d.
Proof.
  induction sl as [|ks sl IH]; intros w d H.
  - inversion H; subst. split; [auto|constructor].
  - cbn [sample_kw] in *. unfold bind in *.
    set (w1 := fst (add_arr (sample_col n rp ks) w)) in *.
    assert (Ea : add_arr (sample_col n rp ks) w = (w1, Ok (length (h_arrs (w_heap w))))) by reflexivity.
    assert (Ar : h_arrs (w_heap w1) = h_arrs (w_heap w) ++ [sample_col n rp ks]) by reflexivity.
    rewrite Ea in *. clearbody w1. clear Ea. specialize (IH w1).
    destruct (sample_kw n rp sl w1) as [w2 [d2|e]]; cbn [fst snd] in *; [|discriminate]. unfold ret in *. cbn [fst snd] in *. inversion H; subst.
    destruct (IH _ eq_refl) as [I1 I2]. split.
    + intros i x Hx. apply I1. rewrite Ar, nth_error_app1; [exact Hx|]. apply nth_error_Some. congruence.
    + constructor; [|exact I2]. split; [reflexivity|]. cbn [deref snd]. rewrite (I1 _ (sample_col n rp ks)); [reflexivity|].
      rewrite Ar, nth_error_app2 by lia. rewrite Nat.sub_diag. reflexivity.
Qed.
Lemma same_samples h1 h2 n rp sl : forall d1 d2,
  Forall2 (fun ks kv => fst ks = fst kv /\ deref h1 (snd kv) = Ok (sample_col n rp ks)) sl d1 ->
  Forall2 (fun ks kv => fst ks = fst kv /\ deref h2 (snd kv) = Ok (sample_col n rp ks)) sl d2 -> same_kw h1 h2 d1 d2.
Proof.
  induction sl as [|ks sl IH]; intros d1 d2 F1 F2; inversion F1; inversion F2; subst; [constructor|].
  constructor; [|apply IH; assumption]. destruct H1 as [<- ->], H6 as [<- ->]. auto.
Qed.
Lemma same_slider_vals h1 h2 sl : same_kw h1 h2 (slider_vals sl) (slider_vals sl).
Proof. unfold slider_vals. induction sl as [|ks sl IH]; constructor; [split; reflexivity|exact IH]. Qed.

(** ** An update shows the same, whatever happened to the values of these parameters before *)
Definition op_res (x : out) : res out := match x with Raised e => Err e | y => Ok y end.
Lemma call_op_eq p w : call_op p w = (fst (step w p), op_res (snd (step w p))).
Proof. unfold call_op, op_res. destruct (step w p) as [w' x]. reflexivity. Qed.
Lemma update_out w o kw r : obj (w_heap w) o = Ok r -> snd (step w (OUpdate o kw)) = RetNone.
Proof. intros Hr. cbn [step]. rewrite snd_as_out. now destruct (proj1 (eff_update o kw) w r Hr) as [_ ->]. Qed.

Section Shown.
  Context (w : world) (o : nat) (sl : dict slider) (r : rt1).
  Hypothesis (Hr : obj (w_heap w) o = Ok r) (HN : incl (dkeys sl) (dkeys (r_params r))) (Hi : r_fnevals_input r = None) (Hc : hclosed (w_heap w)).
  Let Q (u : world) := only_values o (dkeys sl) w u /\ updatable u o.
  Lemma Q_update u kw : Q u -> dkeys kw = dkeys sl -> has_kw (w_heap u) kw -> Q (fst (step u (OUpdate o kw))).
  Proof. intros [A B] E X. eapply ov_upd; try eassumption. rewrite E. apply incl_refl. Qed.
  Lemma Q_calc u : Q u -> Q (fst (step u (OCalc o nil))).
  Proof. intros [A B]. eapply ov_calc; eassumption. Qed.
  Lemma Q_obj u : Q u -> exists r', obj (w_heap u) o = Ok r'.
  Proof. intros [A _]. destruct (ov_obj _ _ _ _ A r Hr) as (r' & _ & H & _). eauto. Qed.
  Lemma Q_run u qs : Q u -> Forall (widget_op o (dkeys sl)) qs -> args_ok u qs -> Q (fst (run u qs)).
  Proof. intros [A B] F W. eapply ov_run; eassumption. Qed.

  Lemma upd_calc u1 u2 kw1 kw2 : Q u1 -> Q u2 -> same_kw (w_heap u1) (w_heap u2) kw1 kw2 -> dkeys kw1 = dkeys sl ->
    has_kw (w_heap u1) kw1 -> has_kw (w_heap u2) kw2 ->
    snd (step (fst (step u1 (OUpdate o kw1))) (OCalc o nil)) = snd (step (fst (step u2 (OUpdate o kw2))) (OCalc o nil)).
  Proof. intros [A1 B1] [A2 B2] S K X1 X2. eapply same_calc; eassumption. Qed.

  Lemma same_shown u1 u2 rg : Q u1 -> Q u2 -> snd (analyze_update o sl rg u1) = snd (analyze_update o sl rg u2).
  Proof.
    intros Q1 Q2. destruct (Q_obj _ Q1) as (r1 & H1). destruct (Q_obj _ Q2) as (r2 & H2).
    unfold analyze_update, bind. rewrite !call_op_eq. rewrite (update_out _ _ _ _ H1), (update_out _ _ _ _ H2). cbn [op_res].
    pose proof (upd_calc u1 u2 _ _ Q1 Q2 (same_slider_vals _ _ sl) (slider_vals_keys sl) (slider_vals_exist _ _) (slider_vals_exist _ _)) as E. rewrite E.
    pose proof (Q_calc _ (Q_update _ _ Q1 (slider_vals_keys sl) (slider_vals_exist _ _))) as Q1'.
    pose proof (Q_calc _ (Q_update _ _ Q2 (slider_vals_keys sl) (slider_vals_exist _ _))) as Q2'.
    set (v1 := fst (step (fst (step u1 _)) _)) in *. set (v2 := fst (step (fst (step u2 _)) _)) in *. clearbody v1 v2.
    destruct (op_res _) as [c|e]; [|reflexivity]. destruct rg as [rp|]; [|reflexivity].
    unfold get_range_lines. destruct (dget sl rp); [|reflexivity]. unfold bind.
    destruct (co_sample o (dkeys sl) 20 rp sl v1) as ((q1 & F1 & W1 & R1) & d1 & D1 & K1 & X1 & _).
    destruct (co_sample o (dkeys sl) 20 rp sl v2) as ((q2 & F2 & W2 & R2) & d2 & D2 & K2 & X2 & _).
    destruct (sample_vals 20 rp sl v1 d1 D1) as [_ S1]. destruct (sample_vals 20 rp sl v2 d2 D2) as [_ S2].
    destruct (sample_kw 20 rp sl v1) as [y1 z1]. destruct (sample_kw 20 rp sl v2) as [y2 z2]. cbn [fst snd] in *. subst z1 z2.
    assert (Qy1 : Q y1) by (rewrite R1; now apply Q_run). assert (Qy2 : Q y2) by (rewrite R2; now apply Q_run).
    destruct (Q_obj _ Qy1) as (s1 & G1). destruct (Q_obj _ Qy2) as (s2 & G2).
    rewrite !call_op_eq. rewrite (update_out _ _ _ _ G1), (update_out _ _ _ _ G2). cbn [op_res].
    rewrite (upd_calc y1 y2 d1 d2 Qy1 Qy2 (same_samples _ _ _ _ _ _ _ S1 S2) K1 X1 X2). destruct (op_res _); reflexivity.
  Qed.
End Shown.
