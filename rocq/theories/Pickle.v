(** What pickling and unpickling an RT1 object produces (_calc.py:127-150). *)
From Verif Require Export StateProps2.
Open Scope nat_scope.

(** [v'] in heap [h'] is a copy of [v] in heap [h] *)
Definition copied (h h' : heap) (v v' : pyval) : Prop :=
  (forall a, deref h v = Ok a -> deref h' v' = Ok a) /\
  match v, v' with PNum x, PNum y => x = y | PArr _, PArr _ => True | _, _ => False end.
Definition copied_s (h h' : heap) (v v' : sval) : Prop :=
  match v, v' with SRaw x, SRaw y | S1d x, S1d y => copied h h' x y | _, _ => False end.
Definition copied_o (h h' : heap) (v v' : option pyval) : Prop :=
  match v, v' with None, None => True | Some x, Some y => copied h h' x y | _, _ => False end.
Definition copied_d (h h' : heap) (v v' : pdef) : Prop :=
  match v, v' with DStr x, DStr y | DSym x, DSym y => x = y | DVal x, DVal y => copied h h' x y | _, _ => False end.
Definition copied_p (h h' : heap) (d d' : dict sval) : Prop :=
  Forall2 (fun x y => fst x = fst y /\ copied_s h h' (snd x) (snd y)) d d'.

(** only arrays and scattering functions are added *)
Definition grows (h h' : heap) : Prop :=
  h_be h' = h_be h /\ h_seng h' = h_seng h /\ h_objs h' = h_objs h /\
  (forall i a, nth_error (h_scats h) i = Some a -> nth_error (h_scats h') i = Some a) /\
  (forall i a, nth_error (h_arrs h) i = Some a -> nth_error (h_arrs h') i = Some a).
Lemma grows_refl h : grows h h. Proof. repeat split; auto. Qed.
Lemma grows_trans a b c : grows a b -> grows b c -> grows a c.
Proof. intros (A1 & A2 & A3 & A4 & A5) (B1 & B2 & B3 & B4 & B5). repeat split; try congruence; auto. Qed.
Lemma grows_deref h h' v a : grows h h' -> deref h v = Ok a -> deref h' v = Ok a.
Proof.
  intros (_ & _ & _ & _ & G) H. destruct v as [x|i]; simpl in *; [assumption|].
  destruct (nth_error (h_arrs h) i) as [y|] eqn:E; [|discriminate]. now rewrite (G _ _ E).
Qed.
Lemma grows_scat h h' i s : grows h h' -> scat_at h i = Ok s -> scat_at h' i = Ok s.
Proof. intros (_ & _ & _ & G & _) H. unfold scat_at in *. destruct (nth_error (h_scats h) i) as [y|] eqn:E; [|discriminate]. now rewrite (G _ _ E). Qed.
Lemma copied_grow h h1 h2 v v' : copied h h1 v v' -> grows h1 h2 -> copied h h2 v v'.
Proof. intros [H K] G. split; [|assumption]. intros a Ha. eapply grows_deref; eauto. Qed.
Lemma copied_s_grow h h1 h2 v v' : copied_s h h1 v v' -> grows h1 h2 -> copied_s h h2 v v'.
Proof. destruct v, v'; simpl; try tauto; apply copied_grow. Qed.
Lemma copied_o_grow h h1 h2 v v' : copied_o h h1 v v' -> grows h1 h2 -> copied_o h h2 v v'.
Proof. destruct v, v'; simpl; try tauto; apply copied_grow. Qed.
Lemma copied_d_grow h h1 h2 v v' : copied_d h h1 v v' -> grows h1 h2 -> copied_d h h2 v v'.
Proof. destruct v, v'; simpl; try tauto; apply copied_grow. Qed.
Lemma copied_p_grow h h1 h2 v v' : copied_p h h1 v v' -> grows h1 h2 -> copied_p h h2 v v'.
Proof.
  intros H G. induction H as [|x y d d' [E Hx] Hd IH]; constructor; [|exact IH]. split; [assumption|]. eapply copied_s_grow; eassumption.
Qed.

(** [m] only adds arrays and scattering functions to the heap; if it succeeds its result satisfies [P].
    [h0]: the heap the original lives in *)
Definition copies {A} (h0 : heap) (m : M A) (P : heap -> A -> Prop) : Prop :=
  forall w, grows h0 (w_heap w) ->
    grows (w_heap w) (w_heap (fst (m w))) /\ match snd (m w) with Ok a => P (w_heap (fst (m w))) a | Err _ => True end.
Lemma copies_ret {A} h0 (a : A) (P : heap -> A -> Prop) : (forall h, grows h0 h -> P h a) -> copies h0 (ret a) P.
Proof. intros H w G. simpl. split; [apply grows_refl|auto]. Qed.
Lemma copies_bind {A B} h0 (m : M A) (k : A -> M B) P Q :
  copies h0 m P ->
  (forall a w1, grows h0 (w_heap w1) -> P (w_heap w1) a ->
     grows (w_heap w1) (w_heap (fst (k a w1))) /\ match snd (k a w1) with Ok b => Q (w_heap (fst (k a w1))) b | Err _ => True end) ->
  copies h0 (bind m k) Q.
Proof.
  intros Hm Hk w G. unfold bind. specialize (Hm w G). destruct (m w) as [w1 [a|e]]; cbn [fst snd] in *; [|tauto]. destruct Hm as [G1 Pa].
  specialize (Hk a w1 (grows_trans _ _ _ G G1) Pa). destruct Hk as [G2 Qb]. split; [eapply grows_trans; eassumption|assumption].
Qed.
Lemma copies_val h0 v : copies h0 (copy_val v) (fun h v' => copied h0 h v v').
Proof.
  intros w G. destruct v as [x|i]; simpl.
  - split; [apply grows_refl|]. split; [intros a H; exact H|reflexivity].
  - unfold bind, gets. simpl. destruct (nth_error (h_arrs (w_heap w)) i) as [a|] eqn:E; simpl; [|split; [apply grows_refl|exact I]].
    split.
    + repeat split; simpl; auto. intros j b Hb. rewrite nth_error_app1; [assumption|]. apply nth_error_Some. congruence.
    + split; [|exact I]. intros b Hb. apply (grows_deref _ _ _ _ G) in Hb. simpl in *. rewrite E in Hb. simpl in Hb.
      rewrite nth_error_app2, Nat.sub_diag by lia. exact Hb.
Qed.
Lemma copies_sval h0 v : copies h0 (copy_sval v) (fun h v' => copied_s h0 h v v').
Proof.
  destruct v as [v|v]; unfold copy_sval; (eapply copies_bind; [apply copies_val|]); intros a w1 G P; simpl; (split; [apply grows_refl|exact P]).
Qed.
Lemma copies_opt h0 v : copies h0 (copy_opt v) (fun h v' => copied_o h0 h v v').
Proof.
  destruct v as [v|]; unfold copy_opt.
  - eapply copies_bind; [apply copies_val|]; intros a w1 G P; simpl; (split; [apply grows_refl|exact P]).
  - apply copies_ret. intros h _. exact I.
Qed.
Lemma copies_def h0 v : copies h0 (copy_def v) (fun h v' => copied_d h0 h v v').
Proof.
  destruct v as [v|v|v]; unfold copy_def.
  - apply copies_ret. intros h _. reflexivity.
  - apply copies_ret. intros h _. reflexivity.
  - eapply copies_bind; [apply copies_val|]; intros a w1 G P; simpl; (split; [apply grows_refl|exact P]).
Qed.
Lemma copies_params h0 d : copies h0 (copy_params d) (fun h d' => copied_p h0 h d d').
Proof.
  induction d as [|[k v] d IH]; cbn [copy_params].
  - apply copies_ret. intros h _. constructor.
  - eapply copies_bind; [apply copies_sval|]. intros x w1 G1 P1.
    pose proof (IH w1 G1) as [G2 P2]. unfold bind. destruct (copy_params d w1) as [w2 [xs|e]]; cbn [fst snd] in *; [|split; [assumption|exact I]].
    simpl. split; [assumption|]. constructor; [|exact P2]. split; [reflexivity|]. simpl. eapply copied_s_grow; eassumption.
Qed.
Lemma copies_scat h0 s : copies h0 (add_scat s) (fun h i => scat_at h i = Ok s).
Proof.
  intros w G. simpl. split.
  - repeat split; simpl; auto. intros j b Hb. rewrite nth_error_app1; [assumption|]. apply nth_error_Some. congruence.
  - unfold scat_at. simpl. rewrite nth_error_app2, Nat.sub_diag by lia. reflexivity.
Qed.

(** [r'] in [h'] is a copy of [r] in [h] *)
Definition copy_of (h h' : heap) (r r' : rt1) : Prop :=
  (forall s, scat_at h (r_V r) = Ok s -> scat_at h' (r_V r') = Ok s) /\
  (forall s, scat_at h (r_SRF r) = Ok s -> scat_at h' (r_SRF r') = Ok s) /\
  copied h h' (r_I0 r) (r_I0 r') /\ (forall p, copied_d h h' (r_def r p) (r_def r' p)) /\
  copied_p h h' (r_params r) (r_params r') /\ (forall a, copied_o h h' (r_ang r a) (r_ang r' a)) /\
  r_intQ r' = r_intQ r /\ r_sig0 r' = r_sig0 r /\ r_dB r' = r_dB r /\ r_fn_input r' = r_fn_input r /\
  r_fnevals_input r' = r_fnevals_input r /\ r_fixed r' = r_fixed r /\ r_mono r' = r_mono r /\ r_geom r' = r_geom r /\
  r_fn r' = r_fn r /\ r_fnev r' = r_fnev r /\ r_plots r' = r_plots r.

Ltac push g := repeat match type of g with grows ?a ?b => match goal with
  | H : copied _ a _ _ |- _ => apply (fun X => copied_grow _ _ _ _ _ X g) in H
  | H : copied_s _ a _ _ |- _ => apply (fun X => copied_s_grow _ _ _ _ _ X g) in H
  | H : copied_o _ a _ _ |- _ => apply (fun X => copied_o_grow _ _ _ _ _ X g) in H
  | H : copied_d _ a _ _ |- _ => apply (fun X => copied_d_grow _ _ _ _ _ X g) in H
  | H : copied_p _ a _ _ |- _ => apply (fun X => copied_p_grow _ _ _ _ _ X g) in H
  | H : scat_at a _ = Ok _ |- _ => apply (grows_scat _ _ _ _ g) in H
  end end.
Ltac pk2 L := match goal with
  | G : grows ?h0 (w_heap ?w) |- context [bind ?m ?k ?w] =>
     let g := fresh "g" in let P := fresh "Hc" in
     pose proof (L w G) as [g P]; unfold bind at 1;
     destruct (m w) as [? [?|?]]; cbn [fst snd] in g, P; cbv beta in P;
     [apply (grows_trans _ _ _ G) in g as ?; push g; clear g G|exact (grows_trans _ _ _ G g)]
  end.
Lemma pickle_rest_spec r w :
  match pickle_rest r w with
  | (w', Ok n) => n = length (h_objs (w_heap w)) /\
      exists h' r', grows (w_heap w) h' /\ w_heap w' = set_objs h' (h_objs h' ++ [r']) /\ copy_of (w_heap w) h' r r'
  | (w', Err _) => grows (w_heap w) (w_heap w')
  end.
Proof.
  assert (Gs : forall i, copies (w_heap w) (gets (fun h => scat_at h i)) (fun h s => scat_at h i = Ok s)).
  { intros i w1 G. unfold gets. simpl. split; [apply grows_refl|]. destruct (scat_at (w_heap w1) i); auto. }
  pose proof (grows_refl (w_heap w)) as G.
  unfold pickle_rest.
  assert (S1 : forall s, scat_at (w_heap w) (r_V r) = Ok s -> scat_at (w_heap w) (r_V r) = Ok s) by auto.
  pk2 (Gs (r_V r)). pk2 (copies_scat (w_heap w) a). pk2 (Gs (r_SRF r)). pk2 (copies_scat (w_heap w) a1).
  pk2 (copies_val (w_heap w) (r_I0 r)). pk2 (copies_def (w_heap w) (r_def r Tau)). pk2 (copies_def (w_heap w) (r_def r Omega)).
  pk2 (copies_def (w_heap w) (r_def r NormBRDF)). pk2 (copies_def (w_heap w) (r_def r Bsf)). pk2 (copies_params (w_heap w) (r_params r)).
  pk2 (copies_opt (w_heap w) (r_ang r T0)). pk2 (copies_opt (w_heap w) (r_ang r TEx)). pk2 (copies_opt (w_heap w) (r_ang r P0)). pk2 (copies_opt (w_heap w) (r_ang r PEx)).
  match goal with H : grows (w_heap w) (w_heap ?x) |- _ => set (w' := x) in *; rename H into GG end.
  cbn [add_obj]. split; [destruct GG as (_ & _ & -> & _); reflexivity|].
  exists (w_heap w'). eexists. split; [exact GG|]. split; [reflexivity|].
  repeat match goal with H : scat_at _ _ = Ok _ |- _ => revert H end. intros.
  unfold copy_of. cbn [r_V r_SRF r_I0 r_def r_params r_ang r_intQ r_sig0 r_dB r_fn_input r_fnevals_input r_fixed r_mono r_geom r_fn r_fnev r_plots].
  split. { intros s Hs. apply (grows_scat _ _ _ _ GG) in Hs. congruence. }
  split. { intros s Hs. apply (grows_scat _ _ _ _ GG) in Hs. congruence. }
  split; [assumption|]. split; [intros []; assumption|]. split; [assumption|]. split; [intros []; assumption|]. repeat split; reflexivity.
Qed.
