(** Objects that differ only in which coefficients of the interaction term have been computed already. *)
From Verif Require Import Stable StateProps2 Memo PlotFacts.
From Verif Require Export Properties37.
From Coq Require Import Lia.
Open Scope string_scope.
Open Scope nat_scope.
Open Scope list_scope.

Lemma same_refl h r : same_obj h r r. Proof. repeat split. Qed.
Lemma same_sym h r r' : same_obj h r r' -> same_obj h r' r. Proof. intros (A & B & C). repeat split; now symmetry. Qed.
Lemma same_trans h r1 r2 r3 : same_obj h r1 r2 -> same_obj h r2 r3 -> same_obj h r1 r3.
Proof. intros (A & B & C) (A' & B' & C'). repeat split; congruence. Qed.
Lemma strip_eq r r' : strip r' = strip r -> r' = with_fnev (with_fn r (r_fn r')) (r_fnev r').
Proof. destruct r, r'. unfold strip, with_fnev, with_fn. cbn. intros E. injection E. intros. subst. reflexivity. Qed.
Lemma fnev_keys h r d : dkeys d = dkeys (r_params r) -> fnev_next h (with_params r d) = fnev_next h r.
Proof.
  intros E. unfold fnev_next, fn_next.
  change (r_fnev (with_params r d)) with (r_fnev r). change (r_fnevals_input (with_params r d)) with (r_fnevals_input r). change (r_intQ (with_params r d)) with (r_intQ r).
  destruct (r_fnev r); [reflexivity|]. destruct (r_fnevals_input r); [reflexivity|]. destruct (r_intQ r); [|reflexivity].
  unfold p_comp, PureCalc.p_fn. cbn [conf c_params c_backend c_seng c_fnin c_intQ c_V c_SRF c_geom with_params r_params r_fn r_fn_input r_intQ r_V r_SRF r_geom]. now rewrite !dkeys_map, E.
Qed.
Lemma same_upd h r r' kw : same_obj h r r' -> In "bsf" (dkeys (r_params r)) -> incl (dkeys kw) (dkeys (r_params r)) -> same_obj h (upd_rec r kw) (upd_rec r' kw).
Proof.
  intros (Hs & Hc & Hf) Hb Hi. pose proof (strip_eq _ _ Hs) as E. assert (Ep : r_params r' = r_params r) by (rewrite E; reflexivity).
  unfold upd_rec. rewrite !upd_kw_bsf, Ep by (rewrite ?Ep; exact Hb). set (d := dupdate (r_params r) _).
  assert (K : dkeys d = dkeys (r_params r)) by (apply dkeys_dupdate_in; rewrite dkeys_map; exact Hi).
  split; [rewrite E; destruct r; reflexivity|]. split; [rewrite E; destruct r; reflexivity|]. rewrite !fnev_keys by (rewrite ?Ep; exact K). exact Hf.
Qed.

(** heaps that differ only in this way *)
Definition lazy_eq (h h' : heap) : Prop := exists l, h' = set_objs h l /\ Forall2 (same_obj h) (h_objs h) l.
Lemma set_objs_same h : set_objs h (h_objs h) = h. Proof. now destruct h. Qed.
Lemma F2_refl h l : Forall2 (same_obj h) l l. Proof. induction l; constructor; auto using same_refl. Qed.
Lemma lazy_refl h : lazy_eq h h. Proof. exists (h_objs h). rewrite set_objs_same. split; [reflexivity|apply F2_refl]. Qed.
Lemma F2_nth h l l' o r : Forall2 (same_obj h) l l' -> nth_error l o = Some r -> exists r', nth_error l' o = Some r' /\ same_obj h r r'.
Proof. intros H. revert o. induction H; intros [|o] E; cbn in *; try discriminate; [injection E as <-; eauto|auto]. Qed.
Lemma F2_nth' h l l' o r : Forall2 (same_obj h) l l' -> nth_error l' o = Some r -> exists r', nth_error l o = Some r' /\ same_obj h r' r.
Proof. intros H. revert o. induction H; intros [|o] E; cbn in *; try discriminate; [injection E as <-; eauto|auto]. Qed.
Lemma F2_set h l l' o r r' : Forall2 (same_obj h) l l' -> same_obj h r r' -> Forall2 (same_obj h) (list_set l o r) (list_set l' o r').
Proof. intros H S. revert o. induction H; intros [|o]; cbn; try constructor; auto. Qed.
Lemma lazy_HB h h' : lazy_eq h h' -> HB h -> HB h'.
Proof.
  intros (l & -> & F) B o r' Hr. apply obj_nth in Hr. destruct (F2_nth' _ _ _ _ _ F Hr) as (r & Hr0 & S & _). apply obj_nth in Hr0. specialize (B o r Hr0).
  pose proof (strip_eq _ _ S) as E. rewrite E. exact B.
Qed.
Lemma lazy_obj h h' o r : lazy_eq h h' -> obj h o = Ok r -> exists r', obj h' o = Ok r' /\ same_obj h r r'.
Proof. intros (l & -> & F) Hr. apply obj_nth in Hr. destruct (F2_nth _ _ _ _ _ F Hr) as (r' & H1 & H2). exists r'. split; [now apply obj_nth|exact H2]. Qed.

(** calls that only evaluate, with names param_dict has already *)
Definition known (h : heap) (q : op) : Prop :=
  exists o r, uses o q = true /\ obj h o = Ok r /\
  match q with
  | OCalc _ kw | OSurface _ kw | OVolume _ kw | OInteraction _ kw | OUpdate _ kw => incl (dkeys kw) (dkeys (r_params r))
  | OJacobian _ _ _ | OReadAngle _ _ | OReadParam _ _ | OParamDict _ => True
  | _ => False
  end.
Definition kws (q : op) : dict pyval := match q with OCalc _ kw | OSurface _ kw | OVolume _ kw | OInteraction _ kw | OUpdate _ kw => kw | _ => [] end.
Definition rec_after (q : op) (r : rt1) : rt1 :=
  match q with OCalc _ kw | OSurface _ kw | OVolume _ kw | OInteraction _ kw | OUpdate _ kw => upd_rec r kw | _ => r end.
Definition outJ (x : res jac_out) : out := match x with Ok a => RetJac a | Err e => Raised e end.
Definition outD (x : res (dict (nd xr))) : out := match x with Ok a => RetDict a | Err e => Raised e end.
Definition answer (q : op) (C : config) (fe : res (option compiled)) : out :=
  match q with
  | OCalc _ _ => outA (PureCalc.p_calc C fe)
  | OSurface _ _ => outA (let* v := PureCalc.p_surface C in PureCalc.p_convert C v)
  | OVolume _ _ => outA (let* v := PureCalc.p_volume C in PureCalc.p_convert C v)
  | OInteraction _ _ => outA (let* v := PureCalc.p_interaction C fe in PureCalc.p_convert C v)
  | OJacobian _ keys f => outJ (PureApi.p_jacobian C keys f)
  | OReadAngle _ a => outA (p_read C a)
  | OReadParam _ p => outA (p_val C p)
  | OParamDict _ => outD (p_params C)
  | _ => RetNone
  end.
Lemma known_answer h q o r : known h q -> uses o q = true -> obj h o = Ok r ->
  eval h q = answer q (conf h (rec_after q r)) (fnev_next h (rec_after q r)) /\ heap_after h q o (rec_after q r).
Proof.
  intros (o1 & r1 & U1 & Hr1 & K) U Hr. destruct q; cbn in K; try contradiction; cbn in U; apply Nat.eqb_eq in U; subst; cbn [answer rec_after].
  - unfold heap_after, eval, evalh. cbn [step]. unfold as_out. rewrite update_params_eq, (bind_get o r); [|exact Hr]. cbn. split; [reflexivity|]. exists (upd_rec r kw). split; [reflexivity|apply same_refl].
  - split; [now apply eval_angle|]. unfold heap_after, evalh. cbn [step]. apply (eval_same h o r _ _ RetArr Hr (at_ang _ _ _ _ a)).
  - split; [now apply eval_param_read|]. unfold heap_after, evalh. cbn [step]. apply (eval_same h o r _ _ RetArr Hr (at_val _ _ _ _ p)).
  - now apply eval_calc.
  - now apply eval_surface.
  - now apply eval_volume.
  - now apply eval_interaction.
  - now apply eval_jacobian.
  - split; [now apply eval_dict|]. unfold heap_after, evalh. cbn [step]. unfold as_out, gets. cbn. exists r. apply obj_nth in Hr. rewrite (list_set_self _ _ _ Hr), set_objs_same.
    split; [|apply same_refl]. destruct (obj h o) as [r0|]; [|reflexivity]. cbn. destruct (params_nd h r0); reflexivity.
Qed.
Lemma same_after h q o r r' : HB h -> known h q -> uses o q = true -> obj h o = Ok r -> same_obj h r r' -> same_obj h (rec_after q r) (rec_after q r').
Proof.
  intros B (o1 & r1 & U1 & Hr1 & K) U Hr S. assert (o1 = o).
  { destruct q; cbn in K; try contradiction; cbn in U, U1; apply Nat.eqb_eq in U, U1; congruence. }
  subst o1. assert (r1 = r) by congruence. subst r1.
  destruct q; cbn in K; try contradiction; cbn [rec_after]; try exact S; apply same_upd; auto; eapply B; exact Hr.
Qed.
Lemma known_lazy h h' q : lazy_eq h h' -> known h q -> known h' q.
Proof.
  intros L (o & r & U & Hr & K). destruct (lazy_obj _ _ _ _ L Hr) as (r' & Hr' & (S & _)). exists o, r'. split; [exact U|]. split; [exact Hr'|].
  pose proof (strip_eq _ _ S) as E. assert (Ep : r_params r' = r_params r) by (rewrite E; reflexivity). now rewrite Ep.
Qed.
Lemma eval_lazy h h' q : HB h -> lazy_eq h h' -> known h q -> eval h' q = eval h q /\ lazy_eq (evalh h q) (evalh h' q).
Proof.
  intros B L K. pose proof (known_lazy _ _ _ L K) as K'. pose proof K as (o & r & U & Hr & _). destruct (lazy_obj _ _ _ _ L Hr) as (r' & Hr' & S).
  pose proof (same_after h q o r r' B K U Hr S) as SA.
  destruct (known_answer h q o r K U Hr) as [A1 (r2 & A2 & A3)]. destruct (known_answer h' q o r' K' U Hr') as [B1 (r2' & B2 & B3)].
  destruct L as (l & E & F). rewrite E in B1, B2, B3. rewrite E. rewrite conf_set_objs, fnev_set_objs in B1.
  destruct SA as (SA1 & SA2 & SA3). split; [rewrite B1, A1, SA2, SA3; reflexivity|].
  rewrite A2, B2. exists (list_set l o r2'). split; [destruct h; reflexivity|]. cbn [h_objs set_objs]. apply F2_set.
  - exact F.
  - apply (same_trans h r2 (rec_after q r)); [apply same_sym; exact A3|]. apply (same_trans h _ (rec_after q r')); [repeat split; assumption|exact B3].
Qed.

(** a sequence of such calls *)
Fixpoint later (w : world) (c : list op) : Prop :=
  match c with [] => True | q :: c => known (w_heap w) q /\ later (fst (step w q)) c end.
Lemma known_adm J h q : known h q -> adm1 J h q.
Proof.
  intros (o1 & r1 & U1 & Hr1 & K). destruct q; cbn in K; try contradiction; try exact I; cbn in U1; apply Nat.eqb_eq in U1; subst; intros _ r Hr; assert (r1 = r) by congruence; subst; exact K.
Qed.
Lemma lazy_run c : forall J1 w1 u1 J2 w2 u2, Sim J1 w1 u1 -> Sim J2 w2 u2 -> HB (w_heap w1) -> lazy_eq (w_heap w1) (w_heap w2) -> later w1 c -> snd (run w2 c) = snd (run w1 c).
Proof.
  induction c as [|q c IH]; intros J1 w1 u1 J2 w2 u2 S1 S2 B L K; [reflexivity|]. destruct K as [K1 K2].
  pose proof (Sim_bare _ _ _ S1) as S1'. pose proof (Sim_bare _ _ _ S2) as S2'. pose proof (lazy_HB _ _ L B) as B2. pose proof (known_lazy _ _ _ L K1) as K1'.
  destruct (step_sim J1 w1 _ q S1' B (known_adm _ _ _ K1)) as [E1 T1]. destruct (step_sim J2 w2 _ q S2' B2 (known_adm _ _ _ K1')) as [E2 T2].
  destruct (eval_lazy _ _ q B L K1) as [E3 L3]. pose proof (step_HB w1 q B) as B'.
  assert (H1 : w_heap (fst (step w1 q)) = evalh (w_heap w1) q) by apply T1. assert (H2 : w_heap (fst (step w2 q)) = evalh (w_heap w2) q) by apply T2.
  unfold eval in E3. cbn [run]. rewrite <- H1, <- H2 in L3. specialize (IH _ _ _ _ _ _ T1 T2 B' L3 K2).
  destruct (step w1 q) as [w1' x], (step w2 q) as [w2' y]. cbn [fst snd] in *. destruct (run w1' c), (run w2' c). cbn [fst snd] in *. congruence.
Qed.
