(** Proofs of the state properties (C01, C02, C03, C07, C10, C40). *)
From Verif Require Export StateHist.
Open Scope nat_scope.

(** ** Objects that are created *)
Definition keeps_objs {A} (m : M A) : Prop := forall w, h_objs (w_heap (fst (m w))) = h_objs (w_heap w).
Lemma ko_bind {A B} (m : M A) (k : A -> M B) : keeps_objs m -> (forall a, keeps_objs (k a)) -> keeps_objs (bind m k).
Proof. intros Hm Hk w. rewrite bind_fst. destruct (snd (m w)); [rewrite Hk|]; apply Hm. Qed.
Lemma ko_ret {A} (a : A) : keeps_objs (ret a). Proof. intros w; reflexivity. Qed.
Lemma ko_gets {A} (f : heap -> res A) : keeps_objs (gets f). Proof. intros w; reflexivity. Qed.
Lemma ko_add_arr a : keeps_objs (add_arr a). Proof. intros w; reflexivity. Qed.
Lemma ko_add_scat a : keeps_objs (add_scat a). Proof. intros w; reflexivity. Qed.
Lemma ko_copy_val v : keeps_objs (copy_val v).
Proof. destruct v; simpl; [apply ko_ret|]. apply ko_bind; [apply ko_gets|intros]. apply ko_bind; [apply ko_add_arr|intros; apply ko_ret]. Qed.
Lemma ko_copy_sval v : keeps_objs (copy_sval v).
Proof. destruct v; simpl; (apply ko_bind; [apply ko_copy_val|intros; apply ko_ret]). Qed.
Lemma ko_copy_opt v : keeps_objs (copy_opt v).
Proof. destruct v; simpl; [apply ko_bind; [apply ko_copy_val|intros; apply ko_ret]|apply ko_ret]. Qed.
Lemma ko_copy_def v : keeps_objs (copy_def v).
Proof. destruct v; simpl; try apply ko_ret. apply ko_bind; [apply ko_copy_val|intros; apply ko_ret]. Qed.
Lemma ko_copy_params d : keeps_objs (copy_params d).
Proof.
  induction d as [|[k v] d IH]; simpl; [apply ko_ret|].
  apply ko_bind; [apply ko_copy_sval|intros]. apply ko_bind; [assumption|intros; apply ko_ret].
Qed.

Lemma list_set_length {A} (l : list A) o x : length (list_set l o x) = length l.
Proof. revert o; induction l; intros [|o]; simpl; auto. Qed.

Lemma new_objs V S a b c d e f w :
  match new_rt1 V S a b c d e f w with
  | (w', Ok n) => exists v s, V = Some v /\ S = Some s /\ n = length (h_objs (w_heap w)) /\
        h_objs (w_heap w') = h_objs (w_heap w) ++ [fst (mono_rec None (blank v s a b c d e f))] /\
        h_arrs (w_heap w') = h_arrs (w_heap w) /\ h_scats (w_heap w') = h_scats (w_heap w) /\
        h_be (w_heap w') = h_be (w_heap w) /\ h_seng (w_heap w') = h_seng (w_heap w)
  | (w', Err _) => h_objs (w_heap w') = h_objs (w_heap w)
  end.
Proof.
  unfold new_rt1. destruct V as [v|], S as [s|]; try reflexivity.
  set (r0 := blank v s a b c d e f). unfold bind at 1. cbn [add_obj]. unfold bind at 1.
  set (w1 := set_heap w _).
  assert (Hr : obj (w_heap w1) (length (h_objs (w_heap w))) = Ok r0).
  { apply obj_nth. simpl. rewrite nth_error_app2 by lia. now rewrite Nat.sub_diag. }
  destruct (eff_mono (length (h_objs (w_heap w))) None) as [He _].
  destruct (He _ _ Hr) as [H1 H2]. clear He.
  destruct (set_monostatic (length (h_objs (w_heap w))) None w1) as [w' [x|e0]]; cbn [fst snd] in *; [|discriminate].
  exists v, s. simpl. rewrite H1. repeat split.
  unfold hput; simpl. clear. induction (h_objs (w_heap w)) as [|x l IH]; simpl; [reflexivity|]. f_equal. exact IH.
Qed.

(** a successful bind runs both parts *)
Lemma bind_Ok {A B} (m : M A) (k : A -> M B) w w' b :
  bind m k w = (w', Ok b) -> exists a w1, m w = (w1, Ok a) /\ k a w1 = (w', Ok b).
Proof. unfold bind. destruct (m w) as [w1 [a|e]]; [|discriminate]. intros H. eauto. Qed.

Definition pickle_rest (r : rt1) : M nat :=
  do v <- gets (fun h => scat_at h (r_V r)) ;; do sv <- add_scat v ;;
  do s <- gets (fun h => scat_at h (r_SRF r)) ;; do ss <- add_scat s ;;
  do i0 <- copy_val (r_I0 r) ;;
  do dt <- copy_def (r_def r Tau) ;; do dO <- copy_def (r_def r Omega) ;;
  do dn <- copy_def (r_def r NormBRDF) ;; do db <- copy_def (r_def r Bsf) ;;
  do ps <- copy_params (r_params r) ;;
  do t0 <- copy_opt (r_ang r T0) ;; do tex <- copy_opt (r_ang r TEx) ;;
  do p0 <- copy_opt (r_ang r P0) ;; do pex <- copy_opt (r_ang r PEx) ;;
  add_obj (mk_rt1 sv ss (r_intQ r) (r_sig0 r) (r_dB r) (r_fn_input r) (r_fnevals_input r) i0
    (fun p => match p with Tau => dt | Omega => dO | NormBRDF => dn | Bsf => db end)
    ps (r_fixed r) (r_mono r)
    (fun a => match a with T0 => t0 | TEx => tex | P0 => p0 | PEx => pex end)
    (r_geom r) (r_fn r) (r_fnev r) (r_plots r)).
Lemma pickle_eq o w r : obj (w_heap w) o = Ok r ->
  pickle_copy o w = pickle_rest (with_plots r false) (fst (put_obj o (with_plots r false) w)).
Proof.
  intros Hr. unfold pickle_copy, getstate. unfold bind at 1. rewrite (bind_get _ _ _ _ Hr).
  unfold put_obj at 1. cbn [fst].
  assert (X : obj (w_heap (fst (put_obj o (with_plots r false) w))) o = Ok (with_plots r false))
    by (eapply put_obj_obj; eassumption).
  rewrite (bind_get _ _ _ _ X). reflexivity.
Qed.
Lemma pickle_none o w e : obj (w_heap w) o = Err e -> pickle_copy o w = (w, Err e).
Proof. intros H. unfold pickle_copy, getstate, bind, get_obj, gets. rewrite H. reflexivity. Qed.

Lemma pickle_rest_objs r w :
  match pickle_rest r w with
  | (w', Ok n) => n = length (h_objs (w_heap w)) /\
      exists r', h_objs (w_heap w') = h_objs (w_heap w) ++ [r'] /\ r_mono r' = r_mono r /\ r_fixed r' = r_fixed r
  | (w', Err _) => h_objs (w_heap w') = h_objs (w_heap w)
  end.
Proof.
  unfold pickle_rest.
  Ltac pk K := match goal with |- context [bind ?m ?k ?w] =>
     let H := fresh "K" in pose proof (K w) as H; unfold bind at 1;
     match type of H with _ (_ (fst (?mm ?w0))) = _ => destruct (mm w0) as [? [?|?]] end;
     cbn [fst snd] in H; [|exact H]; try rewrite <- H; clear H end.
  pk (ko_gets (fun h => scat_at h (r_V r))). pk (ko_add_scat a).
  pk (ko_gets (fun h => scat_at h (r_SRF r))). pk (ko_add_scat a1).
  pk (ko_copy_val (r_I0 r)). pk (ko_copy_def (r_def r Tau)). pk (ko_copy_def (r_def r Omega)).
  pk (ko_copy_def (r_def r NormBRDF)). pk (ko_copy_def (r_def r Bsf)). pk (ko_copy_params (r_params r)).
  pk (ko_copy_opt (r_ang r T0)). pk (ko_copy_opt (r_ang r TEx)). pk (ko_copy_opt (r_ang r P0)). pk (ko_copy_opt (r_ang r PEx)).
  cbn [add_obj]. split; [reflexivity|]. eexists. split; [reflexivity|]. split; reflexivity.
Qed.

(** calls that create no object *)
Definition kl {A} (m : M A) : Prop := forall w, length (h_objs (w_heap (fst (m w)))) = length (h_objs (w_heap w)).
Lemma kl_frame {A} (m : M A) : frame m -> kl m.
Proof.
  intros H w. specialize (H w). assert (X : map strip (h_objs (w_heap (fst (m w)))) = map strip (h_objs (w_heap w))) by (injection H; auto).
  apply (f_equal (@length rt1)) in X. now rewrite !map_length in X.
Qed.
Lemma kl_bind {A B} (m : M A) (k : A -> M B) : kl m -> (forall a, kl (k a)) -> kl (bind m k).
Proof. intros Hm Hk w. rewrite bind_fst. destruct (snd (m w)); [rewrite Hk|]; apply Hm. Qed.
Lemma kl_catch {A} (m : M A) (k : exn -> M A) : kl m -> (forall a, kl (k a)) -> kl (catch m k).
Proof. intros Hm Hk w. unfold catch. specialize (Hm w). destruct (m w) as [w' [a|e]]; simpl in *; [assumption|]. rewrite Hk. assumption. Qed.
Lemma kl_eff {A} (m : M A) o f : effOk m o f -> (forall w e, obj (w_heap w) o = Err e -> w_heap (fst (m w)) = w_heap w) -> kl m.
Proof.
  intros He Hn w. destruct (obj (w_heap w) o) as [r|e] eqn:Er.
  - destruct (He w r Er) as [-> _]. unfold hput; simpl. apply list_set_length.
  - now rewrite (Hn w e Er).
Qed.
Lemma kl_effect {A} (m : M A) o f : effect m o f -> kl m.
Proof. intros [H1 H2]. eapply kl_eff; [eassumption|]. intros w e E. destruct (H2 w e E) as [-> _]. reflexivity. Qed.

Definition creates (p : op) : bool := match p with ONew _ _ _ _ _ _ _ _ | OPickle _ => true | _ => false end.
Lemma step_len w p : creates p = false -> length (h_objs (w_heap (fst (step w p)))) = length (h_objs (w_heap w)).
Proof.
  intros Hc. destruct p; try discriminate Hc; cbn [step]; rewrite fst_as_out; revert w.
  - intros w; reflexivity.
  - intros w; reflexivity.
  - eapply kl_eff; [apply eff_geo|]. intros; eapply eff_geo_err; eassumption.
  - eapply kl_effect, eff_mono.
  - eapply kl_effect, eff_bi.
  - eapply kl_effect, eff_update.
  - eapply kl_eff; [apply eff_set_def|]. intros w e E. unfold set_def.
    change ((clear_param_cache ;;; (do r <- get_obj o ;; put_obj o (with_def r p d))) w)
      with ((do r <- get_obj o ;; put_obj o (with_def r p d)) (fst (clear_param_cache w))).
    unfold bind, get_obj, gets. change (w_heap (fst (clear_param_cache w))) with (w_heap w). rewrite E. reflexivity.
  - eapply kl_effect, (upd_eff o (fun r => with_flags r iq sg db)).
  - eapply kl_effect, (upd_eff o (fun r => with_I0 r v)).
  - eapply kl_effect, (upd_eff o (fun r => with_V r s)).
  - eapply kl_effect, (upd_eff o (fun r => with_SRF r s)).
  - apply kl_frame; frgo.
  - apply kl_frame; frgo.
  - apply kl_catch; [apply kl_bind; [eapply kl_effect, eff_update|intros; apply kl_frame; frgo]|].
    intros e; apply kl_frame; destruct e; frgo.
  - apply kl_bind; [eapply kl_effect, eff_update|intros; apply kl_frame; frgo].
  - apply kl_bind; [eapply kl_effect, eff_update|intros; apply kl_frame; frgo].
  - apply kl_bind; [eapply kl_effect, eff_update|intros; apply kl_frame; frgo].
  - apply kl_frame; frgo.
  - apply kl_frame; frgo.
  - apply kl_frame. unfold analyze_callable. frgo.
  - unfold set_lambda_backend. intros w. destruct (backend_of_str s); reflexivity.
  - unfold mutate. intros w. destruct (nth_error (h_arrs (w_heap w)) aid); reflexivity.
  - apply kl_frame; frgo.
  - apply kl_frame; frgo.
  - apply kl_frame; frgo.
  - apply kl_frame; frgo.
Qed.

Lemma obj_err_len h i : (exists e, obj h i = Err e) <-> length (h_objs h) <= i.
Proof.
  unfold obj. rewrite <- nth_error_None. destruct (nth_error (h_objs h) i); simpl; split; intros H; eauto; try discriminate.
  destruct H; discriminate.
Qed.

(** ** The history as the user sees it: calls with their outcomes *)
Definition trace (w : world) (ps : list op) : list (op * out) := combine ps (snd (run w ps)).

Lemma run_cons w p ps : run w (p :: ps) =
  (fst (run (fst (step w p)) ps), snd (step w p) :: snd (run (fst (step w p)) ps)).
Proof. cbn [run]. destruct (step w p) as [w1 x]. simpl. destruct (run w1 ps); reflexivity. Qed.
Lemma trace_cons w p ps : trace w (p :: ps) = (p, snd (step w p)) :: trace (fst (step w p)) ps.
Proof. unfold trace. rewrite run_cons. reflexivity. Qed.
Lemma run_app w ps qs : fst (run w (ps ++ qs)) = fst (run (fst (run w ps)) qs).
Proof.
  revert w. induction ps as [|p ps IH]; intros w; [reflexivity|].
  rewrite <- app_comm_cons, !run_cons. cbn [fst]. apply IH.
Qed.

(** *** C01: the mode, from the calls alone *)
Definition upd {A} (m : nat -> A) (n : nat) (a : A) : nat -> A := fun i => if i =? n then a else m i.
Definition mode_step (m : nat -> option bool) (px : op * out) : nat -> option bool :=
  match px with
  | (ONew _ _ _ _ _ _ _ _, RetId n) => upd m n (Some true)
  | (OPickle o, RetId n) => upd m n (m o)
  | (OSetMono o _, _) => match m o with Some _ => upd m o (Some true) | None => m end
  | (OSetBi o _ _ _ _, _) => match m o with Some _ => upd m o (Some false) | None => m end
  | _ => m
  end.
Definition mode_of (tr : list (op * out)) : nat -> option bool := fold_left mode_step tr (fun _ => None).

Definition mode_inv (m : nat -> option bool) (h : heap) : Prop :=
  forall i, m i = match obj h i with Ok r => Some (r_mono r) | Err _ => None end.

Lemma strip_mono r r' : strip r = strip r' -> r_mono r = r_mono r'.
Proof. intros H. change (r_mono (strip r) = r_mono (strip r')). now rewrite H. Qed.
Lemma geo_loop_mono kw r : r_mono (fst (geo_loop kw r)) = r_mono r.
Proof.
  revert r. induction kw as [|[a v] kw IH]; intros r; simpl; [reflexivity|].
  destruct (existsb _ _); [reflexivity|]. destruct v; [|reflexivity]. rewrite IH. reflexivity.
Qed.
Lemma geo_rec_mono kw r : r_mono (fst (geo_rec kw r)) = r_mono r.
Proof.
  unfold geo_rec. destruct (ang_kw kw); [|reflexivity]. destruct (_ && _); [reflexivity|]. apply geo_loop_mono.
Qed.
Lemma mono_rec_mono p r : r_mono (fst (mono_rec p r)) = true.
Proof. destruct p as [[q|]|]; reflexivity. Qed.
Lemma bi_step_mono a v r : r_mono (fst (bi_step a v r)) = r_mono r.
Proof. destruct v as [[q|]|]; reflexivity. Qed.
Lemma seqf_inv {A B} (P : rt1 -> Prop) (f : rt1 -> rt1 * res A) (g : A -> rt1 -> rt1 * res B) r :
  P (fst (f r)) -> (forall a r, P r -> P (fst (g a r))) -> P (fst (seqf f g r)).
Proof. unfold seqf. destruct (f r) as [r' [a|e]]; simpl; auto. Qed.
Lemma bi_rec_mono a b c d r : r_mono (fst (bi_rec a b c d r)) = false.
Proof.
  unfold bi_rec. apply (seqf_inv (fun r => r_mono r = false)); [now rewrite bi_step_mono|intros].
  apply (seqf_inv (fun r => r_mono r = false)); [now rewrite bi_step_mono|intros].
  apply (seqf_inv (fun r => r_mono r = false)); [now rewrite bi_step_mono|intros].
  apply (seqf_inv (fun r => r_mono r = false)); [now rewrite bi_step_mono|intros].
  assumption.
Qed.

Lemma step_mono w p i r : obj (w_heap w) i = Ok r ->
  exists r', obj (w_heap (fst (step w p))) i = Ok r' /\ r_mono r' = r_mono (step_obj p i r).
Proof. intros H. destruct (step_obj_ex w p i r H) as (r' & H1 & H2). exists r'. split; [assumption|now apply strip_mono]. Qed.

Lemma obj_app h l x i : h_objs h = l ++ [x] -> i <> length l ->
  obj h i = opt_res (nth_error l i) Unmodelled.
Proof.
  intros E Hi. unfold obj. rewrite E. destruct (Nat.lt_ge_cases i (length l)).
  - now rewrite nth_error_app1.
  - rewrite (proj2 (nth_error_None l i)) by lia. rewrite nth_error_app2 by lia.
    destruct (i - length l) eqn:?; [lia|]. simpl. now destruct n.
Qed.
Lemma obj_app_last h l x : h_objs h = l ++ [x] -> obj h (length l) = Ok x.
Proof. intros E. apply obj_nth. rewrite E, nth_error_app2 by lia. now rewrite Nat.sub_diag. Qed.

Lemma mode_inv_step m w p : mode_inv m (w_heap w) ->
  mode_inv (mode_step m (p, snd (step w p))) (w_heap (fst (step w p))).
Proof.
  intros H.
  assert (Hgen : creates p = false ->
    forall i, match obj (w_heap (fst (step w p))) i with Ok r => Some (r_mono r) | Err _ => None end
              = match obj (w_heap w) i with Ok r => Some (r_mono (step_obj p i r)) | Err _ => None end).
  { intros Hc i. destruct (obj (w_heap w) i) as [r|e] eqn:E.
    - destruct (step_mono w p i r E) as (r' & -> & ->). reflexivity.
    - assert (exists e, obj (w_heap (fst (step w p))) i = Err e) as [e' ->]; [|reflexivity].
      apply obj_err_len. rewrite step_len by assumption. apply obj_err_len. eauto. }
  destruct p; try (specialize (Hgen eq_refl)).
  all: try (intros i; rewrite Hgen; cbn [mode_step step_obj]; rewrite H; reflexivity).
  - (* ONew *) cbn [step]. unfold as_out. pose proof (new_objs V SRF iq sg db fi fe i0 w) as Hn.
    destruct (new_rt1 V SRF iq sg db fi fe i0 w) as [w' [n|e]]; cbn [fst snd mode_step].
    + destruct Hn as (v & s & _ & _ & -> & Ho & _). intros i. unfold upd.
      destruct (Nat.eqb_spec i (length (h_objs (w_heap w)))) as [->|Hne].
      * rewrite (obj_app_last _ _ _ Ho). reflexivity.
      * rewrite (obj_app _ _ _ _ Ho Hne). apply H.
    + intros i. rewrite H. unfold obj. now rewrite Hn.
  - (* OSetGeometry *) intros i. rewrite Hgen; cbn [mode_step step_obj]; rewrite H.
    destruct (obj (w_heap w) i); [|reflexivity]. destruct (o =? i); [now rewrite geo_rec_mono|reflexivity].
  - (* OSetMono *) intros i. rewrite Hgen; cbn [mode_step step_obj]. rewrite (H o). unfold upd.
    destruct (obj (w_heap w) o) as [r|e] eqn:Eo; [destruct (Nat.eqb_spec i o) as [->|Hne]|].
    + rewrite Eo, Nat.eqb_refl, mono_rec_mono. reflexivity.
    + rewrite H. destruct (obj (w_heap w) i); [|reflexivity]. destruct (Nat.eqb_spec o i); [congruence|reflexivity].
    + rewrite H. destruct (obj (w_heap w) i) eqn:Ei; [|reflexivity]. destruct (Nat.eqb_spec o i); [congruence|reflexivity].
  - (* OSetBi *) intros i. rewrite Hgen; cbn [mode_step step_obj]. rewrite (H o). unfold upd.
    destruct (obj (w_heap w) o) as [r|e] eqn:Eo; [destruct (Nat.eqb_spec i o) as [->|Hne]|].
    + rewrite Eo, Nat.eqb_refl, bi_rec_mono. reflexivity.
    + rewrite H. destruct (obj (w_heap w) i); [|reflexivity]. destruct (Nat.eqb_spec o i); [congruence|reflexivity].
    + rewrite H. destruct (obj (w_heap w) i) eqn:Ei; [|reflexivity]. destruct (Nat.eqb_spec o i); [congruence|reflexivity].
  - intros i. rewrite Hgen; cbn [mode_step step_obj]; rewrite H. destruct (obj (w_heap w) i); [|reflexivity]. now destruct (o =? i).
  - intros i. rewrite Hgen; cbn [mode_step step_obj]; rewrite H. destruct (obj (w_heap w) i); [|reflexivity]. now destruct (o =? i).
  - intros i. rewrite Hgen; cbn [mode_step step_obj]; rewrite H. destruct (obj (w_heap w) i); [|reflexivity]. now destruct (o =? i).
  - intros i. rewrite Hgen; cbn [mode_step step_obj]; rewrite H. destruct (obj (w_heap w) i); [|reflexivity]. now destruct (o =? i).
  - intros i. rewrite Hgen; cbn [mode_step step_obj]; rewrite H. destruct (obj (w_heap w) i); [|reflexivity]. now destruct (o =? i).
  - intros i. rewrite Hgen; cbn [mode_step step_obj]; rewrite H. destruct (obj (w_heap w) i); [|reflexivity]. now destruct (o =? i).
  - intros i. rewrite Hgen; cbn [mode_step step_obj]; rewrite H. destruct (obj (w_heap w) i); [|reflexivity]. now destruct (o =? i).
  - intros i. rewrite Hgen; cbn [mode_step step_obj]; rewrite H. destruct (obj (w_heap w) i); [|reflexivity]. now destruct (o =? i).
  - intros i. rewrite Hgen; cbn [mode_step step_obj]; rewrite H. destruct (obj (w_heap w) i); [|reflexivity]. now destruct (o =? i).
  - intros i. rewrite Hgen; cbn [mode_step step_obj]; rewrite H. destruct (obj (w_heap w) i); [|reflexivity]. now destruct (o =? i).
  - (* OPickle *) cbn [step]. unfold as_out. destruct (obj (w_heap w) o) as [r|e] eqn:Eo.
    + rewrite (pickle_eq _ _ _ Eo). set (w1 := fst (put_obj o (with_plots r false) w)).
      assert (H1 : mode_inv m (w_heap w1)).
      { intros i. unfold w1. rewrite w_heap_put. destruct (Nat.eq_dec o i) as [<-|Hne].
        - rewrite (obj_hput_same _ _ _ _ Eo), H, Eo. reflexivity.
        - rewrite obj_hput_other by assumption. apply H. }
      pose proof (pickle_rest_objs (with_plots r false) w1) as Hp.
      destruct (pickle_rest (with_plots r false) w1) as [w' [n|e]]; cbn [fst snd mode_step].
      * destruct Hp as (-> & r' & Ho & Hm & _). intros i. unfold upd.
        destruct (Nat.eqb_spec i (length (h_objs (w_heap w1)))) as [->|Hne].
        -- rewrite (obj_app_last _ _ _ Ho), H, Eo. simpl. now rewrite Hm.
        -- rewrite (obj_app _ _ _ _ Ho Hne). apply H1.
      * intros i. rewrite (H1 i). unfold obj. now rewrite Hp.
    + rewrite (pickle_none _ _ _ Eo). exact H.
Qed.

Lemma mode_inv_run ps : forall m w, mode_inv m (w_heap w) ->
  mode_inv (fold_left mode_step (trace w ps) m) (w_heap (fst (run w ps))).
Proof.
  induction ps as [|p ps IH]; intros m w H; [exact H|].
  rewrite trace_cons, run_cons. cbn [fold_left fst]. apply IH, mode_inv_step, H.
Qed.
Lemma mode_inv_init seng on : mode_inv (fun _ => None) (w_heap (init seng on)).
Proof. intros i. unfold obj; simpl. now destruct i. Qed.

Lemma mode_of_run seng on ps o :
  mode_of (trace (init seng on) ps) o =
  match obj (w_heap (fst (run (init seng on) ps))) o with Ok r => Some (r_mono r) | Err _ => None end.
Proof. apply (mode_inv_run ps _ _ (mode_inv_init seng on) o). Qed.

(** adding pi to an array elementwise *)
Definition plus_pi (x : out) : out :=
  match x with
  | RetArr a => RetArr (mk_nd (shp a) (fun i => xadd (bget a i) (Fin PI)))
  | _ => x
  end.

Lemma nadd_num a c : nadd a (num c) = Ok (mk_nd (shp a) (fun i => xadd (bget a i) (Fin c))).
Proof. unfold nadd, map2, num. simpl. rewrite bc_shape_nil_r. reflexivity. Qed.

Lemma C01_mono_exit seng on ps o :
  mode_of (trace (init seng on) ps) o = Some true ->
  let w := fst (run (init seng on) ps) in
  snd (step w (OReadAngle o TEx)) = snd (step w (OReadAngle o T0)) /\
  snd (step w (OReadAngle o PEx)) = plus_pi (snd (step w (OReadAngle o P0))).
Proof.
  rewrite mode_of_run. intros H w. fold w in H.
  destruct (obj (w_heap w) o) as [r|] eqn:Er; [|discriminate]. injection H as Hm.
  unfold step, as_out, m_ang, gets. rewrite Er. cbn [rbind read_ang]. rewrite Hm. split; [reflexivity|].
  destruct (stored_ang (w_heap w) r P0) as [a|e]; [|reflexivity]. cbn [rbind]. rewrite nadd_num. reflexivity.
Qed.
