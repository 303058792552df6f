(** Witnesses for C21. *)
From Coquelicot Require Import Coquelicot.
From Coq Require Import Lia List.
From Verif Require Export Properties20 Wit19.
Open Scope string_scope.
Open Scope nat_scope.
Open Scope list_scope.

(** three times, two incidence angles, isotropic volume and surface, sympy; everything else a number *)
Definition VI := VIso a_vol.
Definition SI := SIso a_srf.
Definition grid3 : nd xr := mk_nd (2 :: 3 :: nil) (fun j => Fin (pick (col j) 1%R (1/2)%R)).
Definition histQ (seng iq : bool) (t : nd xr) (norm : pyval) : list op :=
  ONewScat VI :: ONewScat SI :: ONew (Some 0) (Some 1) iq false false None None (PNum (Fin 2)) ::
  ONewArr t :: ONewArr (column 1 (1/2)) ::
  OSetMono 0 None :: OSetGeometry 0 (("t_0", Some (PArr 0)) :: ("p_0", Some (PNum (Fin 0))) :: nil) ::
  OUpdate 0 (("tau", PNum (Fin 1)) :: ("omega", PNum (Fin (1/3))) :: ("NormBRDF", norm) :: nil) :: nil.
Definition wQ (seng iq : bool) (t : nd xr) (norm : pyval) : world := fst (run (init seng true) (histQ seng iq t norm)).
Lemma wQ_tidy seng iq t norm : tidy (wQ seng iq t norm) (OCalc 0 nil).
Proof.
  exists seng, (histQ seng iq t norm). split; [|split; [|reflexivity]].
  - unfold histQ. cbn [app]. repeat (split; [try exact I|]); try exact I; try apply adm_nil; intros [].
  - unfold histQ. cbn [app]. repeat (constructor; [split; [intros []|first [exact I|discriminate|repeat split; discriminate]]|]); constructor.
Qed.
(** calc raises ValueError *)
Lemma wQ_raises : snd (step (wQ false true grid3 (PNum (Fin (1/4)))) (OCalc 0 nil)) = Raised ValueError.
Proof. vm_compute. reflexivity. Qed.
(** reads *)
Definition fit_b (T s : list nat) : bool := match bc_shape s T with Some u => if list_eq_dec Nat.eq_dec u T then true else false | None => false end.
Lemma fit_ble T s : fit_b T s = true -> ble s T.
Proof. unfold fit_b, ble. destruct (bc_shape s T) as [u|]; [|discriminate]. destruct (list_eq_dec _ u T); [congruence|discriminate]. Qed.
Definition out_shape (r : out) : option (list nat) := match r with RetArr a => Some (shp a) | _ => None end.
Definition I0_shape (w : world) (o : nat) : option (list nat) :=
  match obj (w_heap w) o with Ok r => match deref (w_heap w) (r_I0 r) with Ok a => Some (shp a) | _ => None end | _ => None end.
Lemma out_shape_inv r s : out_shape r = Some s -> exists a, r = RetArr a /\ shp a = s.
Proof. destruct r; try discriminate. intros E. injection E as <-. eauto. Qed.
Lemma I0_shape_inv w o s : I0_shape w o = Some s -> exists a, obs_I0 w o a /\ shp a = s.
Proof.
  unfold I0_shape, obs_I0. destruct (obj _ o) as [r|] eqn:E; [|discriminate]. destruct (deref _ (r_I0 r)) as [a|] eqn:D; [|discriminate].
  intros H. injection H as <-. exists a. split; [exists r; auto|reflexivity].
Qed.
Definition dict_shapes (r : out) : option (list (string * list nat)) := match r with RetDict d => Some (map (fun kv => (fst kv, shp (snd kv))) d) | _ => None end.
(** the shapes of all inputs *)
Definition shapes_are (w : world) (o : nat) (fa : angle -> list nat) (fp : pname -> list nat) (si : list nat) (fd : list (string * list nat)) : Prop :=
  (forall b, out_shape (snd (step w (OReadAngle o b))) = Some (fa b)) /\ (forall p, out_shape (snd (step w (OReadParam o p))) = Some (fp p)) /\
  I0_shape w o = Some si /\ dict_shapes (snd (step w (OParamDict o))) = Some fd.
Lemma dict_shapes_inv r fd : dict_shapes r = Some fd -> exists d, r = RetDict d /\ (forall k a, In (k, a) d -> In (k, shp a) fd) /\
  (forall k s, In (k, s) fd -> exists a, In (k, a) d).
Proof.
  destruct r; try discriminate. intros E. injection E as <-. eexists. split; [reflexivity|]. split.
  - intros k a H. apply in_map_iff. exists (k, a). auto.
  - intros k s H. apply in_map_iff in H. destruct H as ((k' & a) & E & H). cbn [fst snd] in E. injection E as <- _. eauto.
Qed.
Lemma shapes_fit w o fa fp si fd T : shapes_are w o fa fp si fd ->
  forallb (fit_b T) (map fa (T0 :: TEx :: P0 :: PEx :: nil) ++ map fp (Tau :: Omega :: NormBRDF :: Bsf :: nil) ++ si :: map snd fd) = true -> inputs_fit w o T.
Proof.
  intros (A & P & I & D) H. rewrite forallb_forall in H. assert (K : forall s, In s (map fa (T0 :: TEx :: P0 :: PEx :: nil) ++ map fp (Tau :: Omega :: NormBRDF :: Bsf :: nil) ++ si :: map snd fd) -> ble s T)
    by (intros s Hs; apply fit_ble, H, Hs). clear H.
  split; [|split; [|split]].
  - intros b. destruct (out_shape_inv _ _ (A b)) as (a & Ha & Sa). exists a. split; [exact Ha|]. rewrite Sa. apply K. apply in_or_app. left. destruct b; simpl; auto.
  - intros p. destruct (out_shape_inv _ _ (P p)) as (a & Ha & Sa). exists a. split; [exact Ha|]. rewrite Sa. apply K. apply in_or_app. right. apply in_or_app. left. destruct p; simpl; auto.
  - destruct (I0_shape_inv _ _ _ I) as (a & Ha & Sa). exists a. split; [exact Ha|]. rewrite Sa. apply K. apply in_or_app. right. apply in_or_app. right. now left.
  - destruct (dict_shapes_inv _ _ D) as (d & Ed & Hd & _). exists d. split; [exact Ed|]. intros k a Hk. apply K. apply in_or_app. right. apply in_or_app. right. right.
    apply in_map_iff. exists (k, shp a). auto.
Qed.
Lemma shapes_carried w o fa fp si fd T : shapes_are w o fa fp si fd -> bc_shapes (si :: fa T0 :: fa TEx :: fp Tau :: fp Bsf :: nil) = Some T -> carried_by_common w o T.
Proof.
  intros (A & P & I & D) H i0 t0 tex tau bsf H1 H2 H3 H4 H5. unfold obs_angle, obs_param in *.
  pose proof (A T0) as X2. rewrite H2 in X2. pose proof (A TEx) as X3. rewrite H3 in X3. pose proof (P Tau) as X4. rewrite H4 in X4. pose proof (P Bsf) as X5. rewrite H5 in X5.
  destruct (I0_shape_inv _ _ _ I) as (j0 & (r & Hr & Hj) & Sj). destruct H1 as (r' & Hr' & Hi). rewrite Hr in Hr'. injection Hr' as <-. rewrite Hj in Hi. injection Hi as <-.
  cbn [out_shape] in *. injection X2 as ->. injection X3 as ->. injection X4 as ->. injection X5 as ->. rewrite Sj. exact H.
Qed.
Lemma shapes_lead w o fa fp si fd (T : list nat) : shapes_are w o fa fp si fd -> length (fa T0) = length T -> length (fa TEx) = length T ->
  forall a, obs_angle w o T0 a \/ obs_angle w o TEx a -> length (shp a) = length T.
Proof.
  intros (A & _) L1 L2 a [H|H]; unfold obs_angle in H.
  - pose proof (A T0) as X. rewrite H in X. cbn [out_shape] in X. injection X as ->. exact L1.
  - pose proof (A TEx) as X. rewrite H in X. cbn [out_shape] in X. injection X as ->. exact L2.
Qed.
Lemma shapes_apart w o fa fp si fd : shapes_are w o fa fp si fd -> forallb (fun kv => negb (mem (fst kv) angle_names)) fd = true -> names_apart w o.
Proof.
  intros (_ & _ & _ & D) H d k a E Hk X. destruct (dict_shapes_inv _ _ D) as (d' & E' & Hd & _). rewrite E in E'. injection E' as <-.
  rewrite forallb_forall in H. specialize (H _ (Hd k a Hk)). cbn [fst] in H. apply negb_true_iff, mem_not_In in H. contradiction.
Qed.
Lemma shapes_evaluable w o fa fp si fd s n : shapes_are w o fa fp si fd -> Forall is_basic (members s) -> ncoefs s = Ok n -> 0 < n ->
  (forall x, In x (scat_syms s) -> ~ In x reserved /\ In x (map fst fd)) -> evaluable w o s.
Proof.
  intros (_ & _ & _ & D) B E P H. split; [exact B|]. split; [eauto|]. intros x Hx. destruct (H x Hx) as [N I]. split; [exact N|].
  apply in_map_iff in I. destruct I as ((k & sh) & E1 & I). cbn [fst] in E1. subst k. destruct (dict_shapes_inv _ _ D) as (d & Ed & _ & Hd).
  destruct (Hd _ _ I) as (a & Ha). exists d, a. auto.
Qed.

Definition faQ (b : angle) : list nat := match b with T0 | TEx => 2 :: 3 :: nil | _ => 1 :: nil end.
Definition fpQ (p : pname) : list nat := match p with Bsf => nil | _ => 1 :: nil end.
Lemma wQ_shapes seng iq : shapes_are (wQ seng iq grid3 (PNum (Fin (1/4)))) 0 faQ fpQ nil (("bsf", nil) :: ("tau", 1 :: nil) :: ("omega", 1 :: nil) :: ("NormBRDF", 1 :: nil) :: nil).
Proof. split; [|split; [|split]]; [intros [| | |]; destruct seng; vm_compute; reflexivity|intros [| | |]; destruct seng; vm_compute; reflexivity|destruct seng; vm_compute; reflexivity|destruct seng; vm_compute; reflexivity]. Qed.

Lemma wQ_evaluable seng iq : evaluable (wQ seng iq grid3 (PNum (Fin (1/4)))) 0 VI /\ evaluable (wQ seng iq grid3 (PNum (Fin (1/4)))) 0 SI.
Proof.
  split; (eapply shapes_evaluable with (n := 1); [apply wQ_shapes|constructor; [intros c a; discriminate|constructor]|reflexivity|lia|intros x []]).
Qed.
Lemma wQ_rest seng iq t norm : obs_flags (wQ seng iq t norm) 0 iq false false /\ names_current (wQ seng iq t norm) 0 /\ own_fn (wQ seng iq t norm) 0 /\
  obs_fun (wQ seng iq t norm) 0 WV VI /\ obs_fun (wQ seng iq t norm) 0 WSRF SI.
Proof.
  split; [eexists; split; [destruct seng; vm_compute; reflexivity|auto]|]. split; [left; eexists; split; [destruct seng; vm_compute; reflexivity|reflexivity]|].
  split; [eexists; split; [destruct seng; vm_compute; reflexivity|split; reflexivity]|].
  split; (eexists; split; [destruct seng; vm_compute; reflexivity|reflexivity]).
Qed.
(** under sympy calc() raises although every other input is a number: the two coefficients are plain numbers
    and np.broadcast_arrays + stack put them on the first axis of t_0 *)
Theorem C21_refuted : ~ C21_intended.
Proof.
  intros Q. destruct (wQ_rest false true grid3 (PNum (Fin (1/4)))) as (H1 & H2 & H3 & H4 & H5).
  destruct (Q (wQ false true grid3 (PNum (Fin (1/4)))) 0 false false VI SI (2 :: 3 :: nil)) as (a & Ha); auto.
  - apply wQ_tidy.
  - apply wQ_evaluable.
  - apply wQ_evaluable.
  - eapply shapes_apart; [apply wQ_shapes|reflexivity].
  - eapply shapes_fit; [apply wQ_shapes|vm_compute; reflexivity].
  - rewrite wQ_raises in Ha. discriminate Ha.
Qed.
Print Assumptions C21_refuted.
(** the same object with the symengine backend meets the hypotheses of C21_success_partial *)
Example C21_success_nonvacuous : exists w o V SRF T, length T = 2 /\
  tidy w (OCalc o nil) /\ obs_flags w o true false false /\ names_current w o /\ own_fn w o /\
  obs_fun w o WV V /\ obs_fun w o WSRF SRF /\ evaluable w o V /\ evaluable w o SRF /\ names_apart w o /\
  inputs_fit w o T /\ carried_by_common w o T /\ angles_lead w o T.
Proof.
  exists (wQ true true grid3 (PNum (Fin (1/4)))), 0, VI, SI, (2 :: 3 :: nil). split; [reflexivity|]. split; [apply wQ_tidy|].
  destruct (wQ_rest true true grid3 (PNum (Fin (1/4)))) as (H1 & H2 & H3 & H4 & H5).
  split; [exact H1|]. split; [exact H2|]. split; [exact H3|]. split; [exact H4|]. split; [exact H5|]. split; [apply wQ_evaluable|]. split; [apply wQ_evaluable|].
  split; [eapply shapes_apart; [apply wQ_shapes|reflexivity]|]. split; [eapply shapes_fit; [apply wQ_shapes|vm_compute; reflexivity]|].
  split; [eapply shapes_carried; [apply wQ_shapes|reflexivity]|]. split; [eapply shapes_lead; [apply wQ_shapes|reflexivity|reflexivity]|]. right.
  assert (E : match obj (w_heap (wQ true true grid3 (PNum (Fin (1/4))))) 0 with Ok r => match fnev_next (w_heap (wQ true true grid3 (PNum (Fin (1/4))))) r with Ok (Some k) => match c_be k with Symengine => true | _ => false end | _ => false end | _ => false end = true) by (vm_compute; reflexivity).
  destruct (obj _ 0) as [r|] eqn:Hr; [|discriminate E]. destruct (fnev_next _ r) as [[k|]|] eqn:Hk; try discriminate E.
  exists r, k. split; [exact Hr|]. split; [exact Hk|]. left. destruct (c_be k); [discriminate E|reflexivity].
Qed.
(** and the object of C21_refuted without interaction those of C21_success_direct_partial *)
Example C21_success_direct_nonvacuous : exists w o V SRF T, length T = 2 /\
  good w (OCalc o nil) /\ obs_flags w o false false false /\ obs_fun w o WV V /\ obs_fun w o WSRF SRF /\
  (forall x, In x (scat_syms V) \/ In x (scat_syms SRF) -> exists d a, snd (step w (OParamDict o)) = RetDict d /\ In (x, a) d) /\ names_apart w o /\
  inputs_fit w o T /\ carried_by_common w o T.
Proof.
  exists (wQ false false grid3 (PNum (Fin (1/4)))), 0, VI, SI, (2 :: 3 :: nil). split; [reflexivity|]. split; [apply tidy_good, wQ_tidy|].
  destruct (wQ_rest false false grid3 (PNum (Fin (1/4)))) as (H1 & H2 & H3 & H4 & H5).
  split; [exact H1|]. split; [exact H4|]. split; [exact H5|]. split; [intros x [[]|[]]|].
  split; [eapply shapes_apart; [apply wQ_shapes|reflexivity]|]. split; [eapply shapes_fit; [apply wQ_shapes|vm_compute; reflexivity]|].
  eapply shapes_carried; [apply wQ_shapes|reflexivity].
Qed.
(** without [carried_by_common] calc() fails as well: NormBRDF is the only input with one value per time, so
    that only the surface contribution has that axis and np.stack fails (sympy; symengine broadcasts all
    parameters) *)
Theorem C21_stack_raises : exists w o V SRF T,
  good w (OCalc o nil) /\ obs_flags w o false false false /\ obs_fun w o WV V /\ obs_fun w o WSRF SRF /\ names_apart w o /\ inputs_fit w o T /\
  snd (step w (OCalc o nil)) = Raised ValueError.
Proof.
  exists (wQ false false (mk_nd (3 :: nil) (fun _ => Fin (1/2)%R)) (PArr 1)), 0, VI, SI, (3 :: 2 :: nil).
  split; [apply tidy_good, wQ_tidy|]. destruct (wQ_rest false false (mk_nd (3 :: nil) (fun _ => Fin (1/2)%R)) (PArr 1)) as (H1 & H2 & H3 & H4 & H5).
  split; [exact H1|]. split; [exact H4|]. split; [exact H5|].
  assert (S : shapes_are (wQ false false (mk_nd (3 :: nil) (fun _ => Fin (1/2)%R)) (PArr 1)) 0 (fun b => match b with T0 | TEx => 3 :: nil | _ => 1 :: nil end)
    (fun p => match p with Bsf => nil | NormBRDF => 1 :: 2 :: nil | _ => 1 :: nil end) nil (("bsf", nil) :: ("tau", 1 :: nil) :: ("omega", 1 :: nil) :: ("NormBRDF", 1 :: 2 :: nil) :: nil)).
  { split; [|split; [|split]]; [intros [| | |]; vm_compute; reflexivity|intros [| | |]; vm_compute; reflexivity|vm_compute; reflexivity|vm_compute; reflexivity]. }
  split; [eapply shapes_apart; [exact S|reflexivity]|]. split; [eapply shapes_fit; [exact S|vm_compute; reflexivity]|]. vm_compute. reflexivity.
Qed.
Print Assumptions C21_stack_raises.
