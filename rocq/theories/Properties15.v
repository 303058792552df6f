(** C11: pickling is neutral, except for the plot functions.  C58: objects do not interfere. *)
From Verif Require Import Interleave Properties14.
From Coq Require Import Reals Lra.
Open Scope string_scope.
Open Scope nat_scope.
Open Scope list_scope.

(** ** Pickling an existing object succeeds *)
Definition good_copy {A} (h0 : heap) (m : M A) : Prop := forall w, grows h0 (w_heap w) -> exists a, snd (m w) = Ok a.
Lemma gc_val h v : has_val h v -> good_copy h (copy_val v).
Proof.
  intros H w G. destruct v as [x|i]; [eexists; reflexivity|]. unfold copy_val, bind, gets.
  destruct (proj1 (has_val_deref h (PArr i)) H) as [a Ha]. apply (grows_deref _ _ _ _ G) in Ha. cbn in Ha |- *.
  destruct (nth_error (h_arrs (w_heap w)) i); [|discriminate Ha]. eexists. reflexivity.
Qed.
Lemma gc_bind_ret {A B} h (m : M A) (f : A -> B) : good_copy h m -> good_copy h (do x <- m ;; ret (f x)).
Proof. intros H w G. destruct (H w G) as [a Ea]. unfold bind. destruct (m w) as [w' x]. cbn in Ea. subst x. eexists. reflexivity. Qed.
Lemma gc_sval h v : has_val h (sv_val v) -> good_copy h (copy_sval v).
Proof. intros H. destruct v; apply (gc_bind_ret h); now apply gc_val. Qed.
Lemma gc_opt h v : (forall x, v = Some x -> has_val h x) -> good_copy h (copy_opt v).
Proof. intros H. destruct v; [apply (gc_bind_ret h); apply gc_val; auto|intros w G; eexists; reflexivity]. Qed.
Lemma gc_def h v : (forall x, v = DVal x -> has_val h x) -> good_copy h (copy_def v).
Proof. intros H. destruct v; try (intros w G; eexists; reflexivity). apply (gc_bind_ret h). apply gc_val; auto. Qed.
Lemma gc_params h d : (forall k v, In (k, v) d -> has_val h (sv_val v)) -> good_copy h (copy_params d).
Proof.
  induction d as [|[k v] d IH]; intros H w G; cbn [copy_params]; [eexists; reflexivity|].
  destruct (gc_sval h v (H k v (or_introl eq_refl)) w G) as [a Ea]. pose proof (copies_sval h v w G) as [G1 _]. unfold bind.
  destruct (copy_sval v w) as [w1 x]. cbn [fst snd] in *. subst x.
  destruct (IH (fun k0 v0 I => H k0 v0 (or_intror I)) w1 (grows_trans _ _ _ G G1)) as [b Eb]. destruct (copy_params d w1) as [w2 y]. cbn in Eb. subst y. eexists. reflexivity.
Qed.
Ltac gcs L C := match goal with
  | G : grows ?h (w_heap ?w) |- exists b, snd (bind ?m ?k ?w) = Ok b =>
     let a := fresh "a" in let Ea := fresh "Ea" in let G1 := fresh "G" in
     destruct (L w G) as [a Ea]; pose proof (proj1 (C w G)) as G1; unfold bind at 1; destruct (m w) as [? ?]; cbn [fst snd] in Ea, G1; subst;
     apply (grows_trans _ _ _ G) in G1; clear G
  end.
Lemma pickle_ok w o : has_obj (w_heap w) o -> hclosed (w_heap w) -> exists n, snd (step w (OPickle o)) = RetId n.
Proof.
  intros Ho Hc. apply has_obj_at in Ho. destruct Ho as [r Er]. cbn [step]. rewrite snd_as_out, (pickle_eq _ _ _ Er).
  set (w1 := fst (put_obj o (with_plots r false) w)).
  assert (C : closed (w_heap w1) (with_plots r false)).
  { specialize (Hc o r Er). unfold w1. rewrite w_heap_put. destruct Hc. split; assumption. }
  clearbody w1. generalize dependent (with_plots r false). clear. intros r C.
  enough (exists n, snd (pickle_rest r w1) = Ok n) as [n ->] by (eexists; reflexivity).
  destruct C as [c1 c2 c3 c4 c5 c6]. set (h := w_heap w1) in *. assert (G : grows h (w_heap w1)) by apply grows_refl. clearbody h.
  assert (Gs : forall i, has_scat h i -> good_copy h (gets (fun h => scat_at h i))).
  { intros i Hi w G1. apply has_scat_at in Hi. destruct Hi as [s Es]. exists s. unfold gets. cbn [snd]. eapply grows_scat; eassumption. }
  assert (Cs : forall i, copies h (gets (fun h => scat_at h i)) (fun _ _ => True)).
  { intros i w G1. split; [apply grows_refl|]. now destruct (snd _). }
  assert (Ga : forall s, good_copy h (add_scat s)) by (intros s w G1; eexists; reflexivity).
  unfold pickle_rest.
  gcs (Gs _ c1) (Cs (r_V r)). gcs (Ga a) (copies_scat h a). gcs (Gs _ c2) (Cs (r_SRF r)). gcs (Ga a1) (copies_scat h a1).
  gcs (gc_val _ _ c3) (copies_val h (r_I0 r)).
  gcs (gc_def h _ (c4 Tau)) (copies_def h (r_def r Tau)). gcs (gc_def h _ (c4 Omega)) (copies_def h (r_def r Omega)).
  gcs (gc_def h _ (c4 NormBRDF)) (copies_def h (r_def r NormBRDF)). gcs (gc_def h _ (c4 Bsf)) (copies_def h (r_def r Bsf)).
  gcs (gc_params _ _ c5) (copies_params h (r_params r)).
  gcs (gc_opt h _ (c6 T0)) (copies_opt h (r_ang r T0)). gcs (gc_opt h _ (c6 TEx)) (copies_opt h (r_ang r TEx)).
  gcs (gc_opt h _ (c6 P0)) (copies_opt h (r_ang r P0)). gcs (gc_opt h _ (c6 PEx)) (copies_opt h (r_ang r PEx)).
  eexists. reflexivity.
Qed.
Theorem C11_pickle_succeeds seng on ps o :
  well_formed (init seng on) ps -> let w := fst (run (init seng on) ps) in has_obj (w_heap w) o ->
  exists n, snd (step w (OPickle o)) = RetId n.
Proof. intros W w Ho. apply pickle_ok; [exact Ho|]. apply run_closed; [apply hclosed_init|exact W]. Qed.
Print Assumptions C11_pickle_succeeds.

Lemma adm_split seng ps qs : adm [] (init seng true) (ps ++ qs) ->
  let w := fst (run (init seng true) ps) in let J := fold_left J_after ps [] in
  Sim J w (bare (w_heap w)) /\ HB (w_heap w) /\ adm J w qs.
Proof.
  intros Ha w J. apply adm_app in Ha. destruct Ha as [Ha Hq]. destruct (run_Sim ps [] _ _ (Sim_init seng) (HB_init seng) Ha) as [HS H].
  split; [eapply Sim_bare; exact HS|]. split; [exact H|exact Hq].
Qed.
Lemma heap_eta h : set_objs h (h_objs h) = h. Proof. destruct h. reflexivity. Qed.
Lemma T_start h h' o o' r r' : obj h o = Ok r -> obj h' o' = Ok r' -> tw h h' r r' -> T h h' o o' (bare h) (bare h').
Proof.
  intros A B R. exists (h_objs h), (h_objs h'). eexists _, _, r, r'. rewrite !heap_eta. split; [reflexivity|]. split; [reflexivity|].
  split; [now apply obj_nth|]. split; [now apply obj_nth|exact R].
Qed.

(** ** C11 *)
(** [x]: the pickled object [o] itself, or the copy [n].  Pickling and whatever is called on other objects
    afterwards does not change what the calls on [x] return: the answers are those of the original without
    pickling.  Calls of analyze / analyze3d are not covered (see [C11_refuted]).  Histories are admissible
    (the exclusions of C12: no V/SRF with another number of coefficients, ...). *)
Theorem C11_partial seng ps o n x rs :
  let w := fst (run (init seng true) ps) in
  let w' := fst (step w (OPickle o)) in
  well_formed (init seng true) ps -> adm [] (init seng true) (ps ++ OPickle o :: rs) ->
  snd (step w (OPickle o)) = RetId n -> x = o \/ x = n ->
  adm [] (init seng true) (ps ++ map (retarget o) (filter (uses x) rs)) ->
  Forall (separate (w_heap w) x) rs ->
  answers x w' rs = snd (run w (map (retarget o) (filter (uses x) rs))).
Proof.
  intros w w' W Ha En Hx Ha0 Hsep. destruct (adm_split seng ps _ Ha0) as (_ & _ & Hq0). fold w in Hq0. destruct (adm_split seng ps (OPickle o :: rs) Ha) as (HS & HBw & Hq). fold w in HS, HBw, Hq.
  set (J := fold_left J_after ps (@nil nat)) in *. destruct Hq as [Hp Hq]. cbn [J_after] in Hq. fold w' in Hq.
  pose proof (run_closed ps _ (hclosed_init seng true) W : hclosed (w_heap w)) as Hc. clearbody w. clear W Ha Ha0. clearbody J.
  destruct (step_sim J w _ (OPickle o) HS HBw Hp) as [_ HS']. cbn [J_after] in HS'. fold w' in HS'. apply Sim_bare in HS'.
  pose proof (step_HB w (OPickle o) HBw : HB (w_heap w')) as HB'.
  destruct (obj (w_heap w) o) as [r|e] eqn:Er.
  2:{ exfalso. cbn [step] in En. rewrite snd_as_out, (pickle_none _ _ _ Er) in En. discriminate. }
  assert (Hw : exists h' rn, n = length (h_objs (w_heap w)) /\ grows (hput (w_heap w) o (with_plots r false)) h' /\
     w_heap w' = set_objs h' (h_objs h' ++ [rn]) /\ copy_of (hput (w_heap w) o (with_plots r false)) h' (with_plots r false) rn).
  { unfold w'. cbn [step] in En |- *. rewrite fst_as_out. rewrite snd_as_out in En. rewrite (pickle_eq _ _ _ Er) in En |- *.
    set (w1 := fst (put_obj o (with_plots r false) w)) in *. assert (E1 : w_heap w1 = hput (w_heap w) o (with_plots r false)) by (unfold w1; now rewrite w_heap_put).
    pose proof (pickle_rest_spec (with_plots r false) w1) as Hs. destruct (pickle_rest (with_plots r false) w1) as [w2 [m|e]]; cbn [fst snd] in *; [|discriminate En].
    injection En as <-. destruct Hs as (-> & h' & rn & A & B & C). rewrite E1 in A, C. exists h', rn. rewrite E1. cbn [hput set_objs h_objs]. rewrite list_set_length. auto. }
  destruct Hw as (h' & rn & -> & G & Ew & Cp).
  assert (E : ext (w_heap w) (w_heap w')). { rewrite Ew. apply grows_ext in G. destruct G as (G1 & G2 & G3 & G4). repeat split; auto. }
  assert (Eo : obj (w_heap w') o = Ok (with_plots r false)).
  { rewrite Ew. apply obj_nth. cbn [set_objs h_objs]. destruct G as (_ & _ & -> & _).
    rewrite nth_error_app1; [apply obj_nth; eapply obj_hput_same; eassumption|]. apply nth_error_Some. pose proof (obj_hput_same _ _ r (with_plots r false) Er) as X. apply obj_nth in X. congruence. }
  assert (Eon : obj (w_heap w') (length (h_objs (w_heap w))) = Ok rn).
  { rewrite Ew. destruct G as (_ & _ & G & _). rewrite G.
    replace (length (h_objs (w_heap w))) with (length (h_objs (hput (w_heap w) o (with_plots r false)))) by (cbn [hput set_objs h_objs]; apply list_set_length).
    apply obj_app_last. reflexivity. }
  pose proof (Hc o r Er) as Cr.
  destruct Hx as [->| ->].
  - refine (proj2 (interleave (w_heap w) o o rs (w_heap w') J J w w' _ _ HS HS' HBw HB' E _ Hsep Hq (or_intror Hq0))).
    eapply T_start; [exact Er|exact Eo|]. apply tw_plots. now apply tw_self.
  - refine (proj2 (interleave (w_heap w) o _ rs (w_heap w') J J w w' _ _ HS HS' HBw HB' E _ Hsep Hq (or_intror Hq0))).
    eapply T_start; [exact Er|exact Eon|].
    assert (C1 : closed (hput (w_heap w) o (with_plots r false)) (with_plots r false)) by (destruct Cr; split; assumption).
    pose proof (tw_copy _ _ _ _ C1 Cp) as Tc. rewrite Ew. destruct Tc; split; assumption.
Qed.
Print Assumptions C11_partial.

(** The full property, with every call on the object (also opening the plots); pickling itself returns a
    new object each time and is left out. *)
Definition C11_intended : Prop := forall seng ps o n x q,
  let w := fst (run (init seng true) ps) in
  let w' := fst (step w (OPickle o)) in
  well_formed (init seng true) ps ->
  adm [] (init seng true) (ps ++ [q]) -> adm [] (init seng true) (ps ++ [OPickle o; retarget x q]) ->
  snd (step w (OPickle o)) = RetId n -> x = o \/ x = n ->
  target q = Some o -> (forall y, q <> OPickle y) -> args_exist (w_heap w) q ->
  snd (step w' (retarget x q)) = snd (step w q).
(** After pickling, analyze() of the original (and of the copy) raises TypeError: __getstate__ overwrites the
    attribute in the __dict__ of the live object (_calc.py:127-150). *)
Lemma histS_wf seng sn st : well_formed (init seng true) (histS sn st).
Proof.
  unfold histS. cbn [well_formed]. unfold mentions_existing. cbn [target args_exist].
  repeat match goal with |- _ /\ _ => split end; try exact I.
  all: try (intros s [= <-]; unfold has_scat; destruct seng; vm_compute; lia).
  all: try (intros x E; discriminate E).
  all: try (intros x [= <-]; unfold has_obj; destruct seng; vm_compute; lia).
  - intros k v [E|[E|[]]]; injection E as <- <-; try exact I. destruct seng; vm_compute; lia.
  - intros k v [E|[E|[E|[E|[]]]]]; injection E as <- <-; try exact I; destruct seng; vm_compute; lia.
Qed.
Lemma adm_join J J' w ps qs : adm J w ps -> fold_left J_after ps J = J' -> adm J' (fst (run w ps)) qs -> adm J w (ps ++ qs).
Proof. intros A <- B. apply adm_app. now split. Qed.
Lemma histS_adm0 seng sn st : adm [] (init seng true) (histS sn st).
Proof. unfold histS. repeat (split; [try exact I|]); try exact I; intros []. Qed.
Lemma histS_adm seng sn st qs : adm [] (fst (run (init seng true) (histS sn st))) qs -> adm [] (init seng true) (histS sn st ++ qs).
Proof. intros H. exact (adm_join [] [] (init seng true) (histS sn st) qs (histS_adm0 seng sn st) eq_refl H). Qed.
Theorem C11_refuted : ~ C11_intended.
Proof.
  intros C. specialize (C true (histS [] []) 0 1 0 (OAnalyze 0)). cbv zeta in C.
  assert (X : snd (step (fst (step (fst (run (init true true) (histS [] []))) (OPickle 0))) (OAnalyze 0)) = snd (step (fst (run (init true true) (histS [] []))) (OAnalyze 0))); [|vm_compute in X; discriminate X].
  apply C.
  - apply histS_wf.
  - apply histS_adm. cbn [adm adm1]. auto.
  - apply histS_adm. cbn [adm adm1 retarget J_after]. auto.
  - vm_compute. reflexivity.
  - now left.
  - reflexivity.
  - discriminate.
  - exact I.
Qed.
Print Assumptions C11_refuted.

(** original (0) and copy (1) used in turn after pickling *)
Definition afterS : list op :=
  [ OUpdate 1 [("tau", PNum (Fin (1/2)))]; OUpdate 0 [("tau", PNum (Fin 2))]; OJacobian 1 ["tau"; "t"] "list"; OReadParam 1 Tau;
    OSetMono 0 None; OVolume 1 []; OSetGeometry 1 [("t_0", Some (PNum (Fin (1/4))))]; OReadAngle 1 T0; ONewArr (mk_nd [] (fun _ => Fin 0)) ].
Definition kinds (l : list out) : list nat :=
  map (fun x => match x with RetNone => 0 | RetArr _ => 1 | RetJac _ => 2 | Raised _ => 3 | _ => 4 end) l.
Ltac admx := repeat (split; [first [exact I | let H := fresh in intros H; exfalso; exact H | let F := fresh in intros _ r _ k F; exfalso; exact F]|]); exact I.
Ltac sepx := repeat (apply Forall_cons; [unfold separate; cbn [uses target Nat.eqb args_exist]; first [exact I | let E := fresh in intros k v E; repeat (destruct E as [E|E]; [injection E as <- <-; exact I|]); destruct E]|]); apply Forall_nil.
Example C11_nonvacuous :
  let ps := histS [] [1; 3] in let w := fst (run (init true true) ps) in
  well_formed (init true true) ps /\ adm [] (init true true) (ps ++ OPickle 0 :: afterS) /\
  snd (step w (OPickle 0)) = RetId 1 /\ adm [] (init true true) (ps ++ map (retarget 0) (filter (uses 1) afterS)) /\
  Forall (separate (w_heap w) 1) afterS /\
  kinds (answers 1 (fst (step w (OPickle 0))) afterS) = [0; 2; 1; 1; 0; 1].
Proof.
  cbv zeta. split; [apply histS_wf|]. split.
  { apply histS_adm. unfold afterS. admx. }
  split; [vm_compute; reflexivity|]. split.
  { apply histS_adm. unfold afterS. cbn [filter uses target Nat.eqb map retarget].
    admx. }
  split; [|vm_compute; reflexivity].
  generalize (w_heap (fst (run (init true true) (histS [] [1; 3])))). intros h. unfold afterS. sepx.
Qed.

(** ** C58: objects do not interfere *)
(** what the calls on object [x] return does not depend on the calls on other objects in between (creating
    objects, arrays and scattering functions and pickling included) *)
Theorem C58_objects_do_not_interfere seng ps x rs :
  let w := fst (run (init seng true) ps) in
  well_formed (init seng true) ps -> adm [] (init seng true) (ps ++ rs) ->
  has_obj (w_heap w) x -> Forall (separate (w_heap w) x) rs ->
  answers x w rs = snd (run w (filter (uses x) rs)).
Proof.
  intros w W Ha Hx Hsep. destruct (adm_split seng ps rs Ha) as (HS & HBw & Hq). fold w in HS, HBw, Hq.
  pose proof (run_closed ps _ (hclosed_init seng true) W : hclosed (w_heap w)) as Hc.
  apply has_obj_at in Hx. destruct Hx as [r Er].
  assert (E : map (retarget x) (filter (uses x) rs) = filter (uses x) rs).
  { clear. induction rs as [|p rs IH]; [reflexivity|]. cbn [filter]. destruct (uses x p) eqn:U; [|exact IH]. cbn [map]. now rewrite IH, (retarget_id x p U). }
  rewrite <- E.
  refine (proj2 (interleave (w_heap w) x x rs (w_heap w) _ _ w w _ _ HS HS HBw HBw (ext_refl _) _ Hsep Hq (or_introl (iff_refl _)))).
  eapply T_start; [exact Er|exact Er|]. apply tw_self; [exact (Hc x r Er)|apply ext_refl].
Qed.
Print Assumptions C58_objects_do_not_interfere.
Definition othersS : list op :=
  [ ONewScat (VHG (ESym "t") (Some 3) a_vol); ONew (Some 2) (Some 1) false false false None None (PNum (Fin 1)); OReadAngle 0 T0;
    OSetGeometry 1 [("t_0", Some (PArr 0)); ("p_0", Some (PNum (Fin 1)))]; OVolume 0 []; OUpdate 1 [("tau", PNum (Fin 0))]; OPickle 0; OReadParam 0 Tau ].
Example C58_nonvacuous :
  let ps := histS [] [1; 3] in let w := fst (run (init true true) ps) in
  well_formed (init true true) ps /\ adm [] (init true true) (ps ++ othersS) /\ has_obj (w_heap w) 0 /\
  Forall (separate (w_heap w) 0) othersS /\ kinds (answers 0 w othersS) = [1; 1; 1].
Proof.
  cbv zeta. split; [apply histS_wf|]. split.
  { apply histS_adm. unfold othersS. admx. }
  split; [vm_compute; lia|]. split; [|vm_compute; reflexivity].
  generalize (w_heap (fst (run (init true true) (histS [] [1; 3])))). intros h. unfold othersS. sepx.
Qed.
