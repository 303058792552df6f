(** Property theorems, part 1: state, caches, geometry, parameters.

    Vocabulary used in the statements (all defined in the model or in this file's small
    specification functions):
    - [init seng on]: freshly imported package, with ([on = true]) or without ([on = false]) the
      @lru_cache decorators; [run w ps] performs a list of API calls; [snd (step w p)] is what call
      [p] returns or raises in state [w]; [trace w ps] pairs every call with its outcome. *)
From Verif Require Import StateProps2.
Open Scope nat_scope.
Open Scope string_scope.
Open Scope list_scope.

(** a small history used as a non-vacuity witness: HG volume, isotropic surface *)
Definition hist0 : list op :=
  [ ONewScat (VHG (ESym "t") (Some 2) a_vol); ONewScat (SIso a_srf);
    ONew (Some 0) (Some 1) true false false None None (PNum (Fin 1));
    OSetGeometry 0 [("t_0", Some (PNum (Fin 1))); ("p_0", Some (PNum (Fin 0)))] ].

(** *** C01.  In monostatic mode (as determined by the calls made: RT1(...) and set_monostatic make an
    object monostatic, set_bistatic bistatic, a pickled copy inherits the mode) reading t_ex gives
    exactly what reading t_0 gives, and p_ex is p_0 + pi element by element. *)
Theorem C01_monostatic_exit_angles : forall seng on ps o,
  mode_of (trace (init seng on) ps) o = Some true ->
  let w := fst (run (init seng on) ps) in
  snd (step w (OReadAngle o TEx)) = snd (step w (OReadAngle o T0)) /\
  snd (step w (OReadAngle o PEx)) = plus_pi (snd (step w (OReadAngle o P0))).
Proof. exact C01_mono_exit. Qed.
Print Assumptions C01_monostatic_exit_angles.

Example C01_nonvacuous :
  mode_of (trace (init true true) (hist0 ++ [OSetBi 0 None None None None; OSetMono 0 None])) 0 = Some true /\
  mode_of (trace (init true true) (hist0 ++ [OSetBi 0 None None None None])) 0 = Some false.
Proof. split; reflexivity. Qed.

(** *** C02.  set_geometry: last write wins and nothing else changes. *)
Theorem C02_set_geometry_ok : forall seng on ps o kw,
  let w := fst (run (init seng on) ps) in
  let w' := fst (step w (OSetGeometry o kw)) in
  NoDup (map fst kw) ->
  snd (step w (OSetGeometry o kw)) = RetNone ->
  (* every angle named reads back as the value passed *)
  (forall k v, In (k, v) kw -> exists a x, angle_of_str k = Some a /\ v = Some x /\
      snd (step w' (OReadAngle o a)) = value_out (w_heap w) x) /\
  (* angles not named are unchanged (in monostatic mode the exit angles follow: C01) *)
  (forall a, (forall k v, In (k, v) kw -> angle_of_str k <> Some a) ->
      is_exit a = false \/ mode_of (trace (init seng on) ps) o = Some false ->
      snd (step w' (OReadAngle o a)) = snd (step w (OReadAngle o a))) /\
  (* nothing else changes *)
  (exists r r', obj (w_heap w) o = Ok r /\ obj (w_heap w') o = Ok r' /\ same_but_angles r r') /\
  (forall i, i <> o -> obj (w_heap w') i = obj (w_heap w) i) /\
  h_arrs (w_heap w') = h_arrs (w_heap w) /\ h_scats (w_heap w') = h_scats (w_heap w) /\
  h_be (w_heap w') = h_be (w_heap w).
Proof.
  intros seng on ps o kw w w' Hnd H.
  destruct (set_geo_ok w o kw Hnd H) as (r & r' & Hr & Hh & Hr' & Hs & Hin & Hout). fold w' in Hh, Hr'.
  assert (Hmono : r_mono r' = r_mono r) by (apply Hs).
  assert (Hd : forall v, deref (w_heap w') v = deref (w_heap w) v) by (intros v; rewrite Hh; reflexivity).
  split; [|split; [|split; [|split; [|]]]].
  - intros k v Hk. destruct (Hin k v Hk) as (a & x & Ha & -> & Hx & He). exists a, x. split; [assumption|]. split; [reflexivity|].
    rewrite (step_readang _ _ _ _ Hr'), read_bi by (rewrite Hmono; assumption).
    rewrite (stored_value _ _ _ _ Hx). unfold value_out. now rewrite Hd.
  - intros a Hn He. rewrite (step_readang _ _ _ _ Hr'), (step_readang _ _ _ _ Hr).
    assert (Hb : is_exit a = true -> r_mono r = false).
    { intros Ha. destruct He as [He|He]; [congruence|]. rewrite mode_of_run in He. fold w in He. rewrite Hr in He. congruence. }
    rewrite !read_bi by (rewrite ?Hmono; assumption). unfold stored_ang. rewrite (Hout a Hn).
    destruct (r_ang r a); [now rewrite Hd|reflexivity].
  - exists r, r'. auto.
  - intros i Hi. rewrite Hh. apply obj_hput_other. congruence.
  - rewrite Hh. auto.
Qed.
Print Assumptions C02_set_geometry_ok.

Theorem C02_set_geometry_raises : forall seng on ps o r kw k v,
  let w := fst (run (init seng on) ps) in
  let w' := fst (step w (OSetGeometry o kw)) in
  obj (w_heap w) o = Ok r -> In (k, v) kw ->
  (* an unknown name: TypeError, nothing changes *)
  (angle_of_str k = None -> snd (step w (OSetGeometry o kw)) = Raised TypeError /\ w_heap w' = w_heap w) /\
  (* an exit angle in monostatic mode: raises, nothing changes *)
  (forall a, angle_of_str k = Some a -> is_exit a = true -> mode_of (trace (init seng on) ps) o = Some true ->
     (exists e, snd (step w (OSetGeometry o kw)) = Raised e) /\ w_heap w' = w_heap w) /\
  (* None, or an angle that is fixed: raises *)
  (v = None \/ (exists a, angle_of_str k = Some a /\ In a (r_fixed r)) ->
     exists e, snd (step w (OSetGeometry o kw)) = Raised e).
Proof.
  intros seng on ps o r kw k v w w' Hr Hin. destruct (set_geo_spec w o kw r Hr) as [H1 H2]. fold w' in H1.
  split; [|split].
  - intros Hk. destruct (ang_kw_err kw k v Hin Hk) as (e & Ek & ->). unfold geo_rec in *. rewrite Ek in *.
    split; [exact H2|]. rewrite H1. now apply hput_self.
  - intros a Hk He Hm. rewrite mode_of_run in Hm. fold w in Hm. rewrite Hr in Hm. injection Hm as Hm.
    unfold geo_rec in *. destruct (ang_kw kw) as [akw|e] eqn:Ek.
    + destruct (ang_kw_in _ _ Ek) as [I1 _]. destruct (I1 k v Hin) as (b & Hb & Hin').
      assert (b = a) by congruence. subst b.
      assert (X : existsb (fun av => angle_eqb TEx (fst av) || angle_eqb PEx (fst av)) akw = true)
        by (apply exit_in; eauto).
      simpl in X, H1, H2. rewrite X, Hm in *. simpl in *. split; [eauto|]. rewrite H1. now apply hput_self.
    + split; [simpl in H2; eauto|]. rewrite H1. now apply hput_self.
  - intros Hv. rewrite H2. unfold geo_rec. destruct (ang_kw kw) as [akw|e] eqn:Ek; [|simpl; eauto].
    destruct (_ && _); [simpl; eauto|]. destruct (ang_kw_in _ _ Ek) as [I1 _].
    destruct (I1 k v Hin) as (b & Hb & Hin').
    destruct (geo_loop_err akw b v r Hin') as [e ->]; [|eauto].
    destruct Hv as [->|(a & Ha & Hf)]; [left; reflexivity|right].
    apply existsb_exists. exists b. split; [congruence|apply angle_eqb_refl].
Qed.
Print Assumptions C02_set_geometry_raises.

Example C02_nonvacuous :
  snd (step (fst (run (init true true) hist0)) (OSetGeometry 0 [("t_0", Some (PNum (Fin 2)))])) = RetNone /\
  snd (step (fst (run (init true true) hist0)) (OSetGeometry 0 [("t_ex", Some (PNum (Fin 2)))])) = Raised AssertionError /\
  snd (step (fst (run (init true true) hist0)) (OSetGeometry 0 [("theta", Some (PNum (Fin 2)))])) = Raised TypeError /\
  snd (step (fst (run (init true true) hist0)) (OSetGeometry 0 [("t_0", None)])) = Raised AssertionError.
Proof. repeat split. Qed.

(** *** C03.  A fixed angle stays fixed until the next set_monostatic/set_bistatic on the object.
    [fixed_by p o a q]: call [p] is set_monostatic/set_bistatic on [o] with angle [a] given as number [q]. *)
Theorem C03_fixed_angles_stay : forall w p o a q ps,
  fixed_by p o a q -> snd (step w p) = RetNone ->
  Forall (fun p => ~ mode_change o p) ps ->
  let w' := fst (run w (p :: ps)) in
  snd (step w' (OReadAngle o a)) = RetArr (mk_nd [1] (fun _ => Fin (Q2R q))) /\
  (forall kw k v, In (k, v) kw -> angle_of_str k = Some a ->
     exists e, snd (step w' (OSetGeometry o kw)) = Raised e).
Proof. exact C03_fixed. Qed.
Print Assumptions C03_fixed_angles_stay.

Example C03_nonvacuous :
  fixed_by (OSetBi 0 None (Some (FNum (1#2))) None None) 0 TEx (1#2) /\
  snd (step (fst (run (init true true) hist0)) (OSetBi 0 None (Some (FNum (1#2))) None None)) = RetNone /\
  Forall (fun p => ~ mode_change 0 p) [OSetGeometry 0 [("t_ex", Some (PNum (Fin 2)))]; OCalc 0 []].
Proof. repeat split; repeat constructor; intros []. Qed.

(** *** C04 / C06 / C12 (caches).  Removing every @lru_cache decorator changes no outcome of any
    admissible history, on any number of objects and for any cache fill level.  [adm] excludes only
    (see its definition): replacing V/SRF by a function with another number of coefficients (or by any
    function, once jacobian compiled derivatives for the object), giving an object new parameter names
    after such a compilation, switching the backend, and writing in place into an array that currently
    serves as zenith angle. *)
Theorem C04_caches_are_transparent : forall seng ps,
  adm [] (init seng true) ps ->
  snd (run (init seng true) ps) = snd (run (init seng false) ps).
Proof. intros seng ps H. eapply run_sim; [apply Sim_init|apply HB_init|exact H]. Qed.
Print Assumptions C04_caches_are_transparent.

(** the same for histories described by the calls alone *)
Definition plain_op (p : op) : Prop :=
  match p with
  | OSetV _ _ | OSetSRF _ _ | OSetBackend _ | OMutate _ _ => False
  | OJacobian _ keys _ => Forall (fun k => In k ["tau"; "omega"; "NormBRDF"; "bsf"]) keys
  | _ => True
  end.
Theorem C04_caches_are_transparent_plain : forall seng ps,
  Forall plain_op ps -> snd (run (init seng true) ps) = snd (run (init seng false) ps).
Proof.
  intros seng ps H. apply C04_caches_are_transparent.
  assert (G : forall w, adm [] w ps); [|apply G].
  induction H as [|p ps Hp Hps IH]; intros w; [exact I|]. cbn [adm]. split.
  - destruct p; simpl in *; try exact I; try contradiction; intros [].
  - replace (J_after [] p) with (@nil nat); [apply IH|]. destruct p; try reflexivity. simpl in *.
    replace (forallb std_key keys) with true; [reflexivity|]. symmetry. apply forallb_forall. intros k Hk.
    rewrite Forall_forall in Hp. specialize (Hp k Hk). simpl in Hp. unfold std_key.
    destruct Hp as [<-|[<-|[<-|[<-|[]]]]]; reflexivity.
Qed.
Print Assumptions C04_caches_are_transparent_plain.

Example C04_nonvacuous : Forall plain_op
  (hist0 ++ [OCalc 0 [("tau", PNum (Fin 1)); ("omega", PNum (Fin 1)); ("NormBRDF", PNum (Fin 1)); ("t", PNum (Fin 0))];
             OSetGeometry 0 [("t_0", Some (PNum (Fin 2)))]; OJacobian 0 ["tau"] "list"; OCalc 0 []]).
Proof. repeat constructor. Qed.

(** *** C07.  param_dict: contains bsf, never forgets or reorders names; the value of a name is the one
    given last to update_params/calc/surface/volume/interaction (whether or not the call succeeded). *)
Theorem C07_parameters_persist : forall w0 ps o d d' seng on qs,
  w0 = fst (run (init seng on) qs) ->
  snd (step w0 (OParamDict o)) = RetDict d ->
  snd (step (fst (run w0 ps)) (OParamDict o)) = RetDict d' ->
  In "bsf" (dkeys d) /\
  (exists extra, dkeys d' = dkeys d ++ extra)%list /\
  (forall k v, last_of (mentions o ps) k = Some v ->
      exists a, deref (w_heap (fst (run w0 ps))) v = Ok a /\ dget d' k = Some (atleast_1d a)) /\
  (forall k, last_of (mentions o ps) k = None -> Forall no_mutation ps -> dget d' k = dget d k).
Proof. exact C07_params. Qed.
Print Assumptions C07_parameters_persist.

Theorem C07_initial_param_dict : forall w V SRF iq sg db fi fe i0 n,
  snd (step w (ONew V SRF iq sg db fi fe i0)) = RetId n ->
  snd (step (fst (step w (ONew V SRF iq sg db fi fe i0))) (OParamDict n)) = RetDict [("bsf", scalar (Fin 0))].
Proof.
  intros w V SRF iq sg db fi fe i0 n. cbn [step]. rewrite fst_as_out. pose proof (new_objs V SRF iq sg db fi fe i0 w) as H.
  unfold as_out at 1. destruct (new_rt1 V SRF iq sg db fi fe i0 w) as [w' [m|e]]; [|discriminate].
  cbn [snd fst]. intros E. injection E as <-. destruct H as (v & s & _ & _ & -> & Ho & _).
  unfold as_out, gets. rewrite (obj_app_last _ _ _ Ho). reflexivity.
Qed.
Print Assumptions C07_initial_param_dict.

Example C07_nonvacuous :
  exists d, snd (step (fst (run (init true true) (hist0 ++ [OCalc 0 [("tau", PNum (Fin 1))]]))) (OParamDict 0)) = RetDict d
            /\ dkeys d = ["bsf"; "tau"].
Proof. eexists. split; reflexivity. Qed.

(** *** C10 is violated: rejected calls can change the object.
    set_geometry assigns its keywords one after the other, and set_monostatic/set_bistatic switch the
    mode and drop fixed angles before they validate their arguments. *)
Definition raised (x : out) : Prop := exists e, x = Raised e.

Theorem C10_rejected_set_geometry_changes_object_refuted :
  exists ps o kw,
    let w := fst (run (init true true) ps) in
    raised (snd (step w (OSetGeometry o kw))) /\
    snd (step w (OReadAngle o T0)) = RetArr (mk_nd [1] (fun _ => Fin 1)) /\
    snd (step (fst (step w (OSetGeometry o kw))) (OReadAngle o T0)) = RetArr (mk_nd [1] (fun _ => Fin 0)).
Proof.
  exists hist0, 0, [("t_0", Some (PNum (Fin 0))); ("p_0", None)].
  split; [eexists; reflexivity|split; reflexivity].
Qed.
Print Assumptions C10_rejected_set_geometry_changes_object_refuted.

Theorem C10_rejected_set_monostatic_changes_object_refuted :
  exists ps o,
    let w := fst (run (init true true) ps) in
    raised (snd (step w (OSetMono o (Some FBad)))) /\
    snd (step w (OReadAngle o TEx)) = RetArr (mk_nd [1] (fun _ => Fin 0)) /\
    snd (step (fst (step w (OSetMono o (Some FBad)))) (OReadAngle o TEx)) = RetArr (mk_nd [1] (fun _ => Fin 1)).
Proof.
  exists (hist0 ++ [OSetBi 0 None None None None; OSetGeometry 0 [("t_ex", Some (PNum (Fin 0)))]])%list, 0.
  split; [eexists; reflexivity|split; reflexivity].
Qed.
Print Assumptions C10_rejected_set_monostatic_changes_object_refuted.

(** What does hold: a rejected set_geometry with at most one keyword changes nothing, and no rejected
    call changes parameters, definitions, V, SRF, flags, I0 or any other object. *)
Theorem C10_rejected_single_keyword_partial : forall w o k v,
  raised (snd (step w (OSetGeometry o [(k, v)]))) ->
  w_heap (fst (step w (OSetGeometry o [(k, v)]))) = w_heap w.
Proof.
  intros w o k v [e H]. destruct (obj (w_heap w) o) as [r|e'] eqn:Er.
  - destruct (set_geo_spec w o [(k, v)] r Er) as [H1 H2]. rewrite H1. rewrite H2 in H.
    unfold geo_rec, ang_kw in *. simpl in *. destruct (angle_of_str k) as [a|]; simpl in *; [|now apply hput_self].
    destruct (_ && _); simpl in *; [now apply hput_self|].
    destruct (existsb (angle_eqb a) (r_fixed r)); simpl in *; [now apply hput_self|].
    destruct v; simpl in *; [discriminate|now apply hput_self].
  - cbn [step]. rewrite fst_as_out. eapply eff_geo_err. eassumption.
Qed.
Print Assumptions C10_rejected_single_keyword_partial.

Definition geometry_op (p : op) (o : nat) : Prop :=
  match p with OSetGeometry o' _ | OSetMono o' _ | OSetBi o' _ _ _ _ => o' = o | _ => False end.
Theorem C10_geometry_calls_touch_geometry_only_partial : forall w p o r i ri,
  geometry_op p o -> obj (w_heap w) o = Ok r -> obj (w_heap w) i = Ok ri ->
  exists r', obj (w_heap (fst (step w p))) i = Ok r' /\
    r_params r' = r_params ri /\ r_def r' = r_def ri /\ r_V r' = r_V ri /\ r_SRF r' = r_SRF ri /\
    r_intQ r' = r_intQ ri /\ r_sig0 r' = r_sig0 ri /\ r_dB r' = r_dB ri /\ r_I0 r' = r_I0 ri /\
    (i <> o -> r_ang r' = r_ang ri /\ r_mono r' = r_mono ri /\ r_fixed r' = r_fixed ri /\ r_geom r' = r_geom ri).
Proof.
  intros w p o r i ri Hp Hr Hi. destruct (step_obj_ex w p i ri Hi) as (r' & H1 & E).
  exists r'. split; [assumption|].
  assert (F : forall A (f : rt1 -> A), (forall x, f (strip x) = f x) -> f r' = f (step_obj p i ri)).
  { intros A f Hf. rewrite <- (Hf r'), <- (Hf (step_obj p i ri)). now rewrite E. }
  rewrite (F _ r_params), (F _ r_def), (F _ r_V), (F _ r_SRF), (F _ r_intQ), (F _ r_sig0), (F _ r_dB),
    (F _ r_I0), (F _ r_ang), (F _ r_mono), (F _ r_fixed), (F _ r_geom) by reflexivity. clear F E H1.
  assert (G : forall akw x, let x' := fst (geo_loop akw x) in
     r_params x' = r_params x /\ r_def x' = r_def x /\ r_V x' = r_V x /\ r_SRF x' = r_SRF x /\
     r_intQ x' = r_intQ x /\ r_sig0 x' = r_sig0 x /\ r_dB x' = r_dB x /\ r_I0 x' = r_I0 x).
  { induction akw as [|[a v] akw IH]; intros x; simpl; [repeat split|].
    destruct (existsb _ _); [repeat split|]. destruct v; [|repeat split].
    destruct (IH (with_ang x a p0)) as (?&?&?&?&?&?&?&?). repeat split; assumption. }
  destruct p; simpl in Hp; try contradiction; subst; cbn [step_obj]; destruct (Nat.eqb_spec o i) as [->|Hne];
    try (repeat split; congruence).
  - unfold geo_rec. destruct (ang_kw kw) as [akw|]; [|repeat split; congruence].
    destruct (_ && _); [repeat split; congruence|]. destruct (G akw ri) as (?&?&?&?&?&?&?&?).
    repeat split; try assumption; congruence.
  - destruct p0 as [[|]|]; repeat split; congruence.
  - unfold bi_rec, seqf, bi_step. destruct t0 as [[|]|], tex as [[|]|], p0 as [[|]|], pex as [[|]|]; repeat split; congruence.
Qed.
Print Assumptions C10_geometry_calls_touch_geometry_only_partial.

(** *** C40.  get_lambda_backend returns the last accepted value, which is always one of the two;
    anything else raises AssertionError and changes nothing. *)
Theorem C40_backend_selection_closed : forall seng on ps,
  let w := fst (run (init seng on) ps) in
  snd (step w OGetBackend) =
    RetStr (last_accepted (if seng then "symengine" else "sympy") (backend_requests ps)) /\
  In (last_accepted (if seng then "symengine" else "sympy") (backend_requests ps)) ["sympy"; "symengine"] /\
  (forall s, ~ In s ["sympy"; "symengine"] ->
     snd (step w (OSetBackend s)) = Raised AssertionError /\ fst (step w (OSetBackend s)) = w) /\
  (forall s, In s ["sympy"; "symengine"] -> snd (step w (OSetBackend s)) = RetNone).
Proof.
  intros seng on ps w. pose proof (C40_run ps (init seng on)) as H. fold w in H.
  change (backend_str (h_be (w_heap (init seng on)))) with (backend_str (if seng then Symengine else Sympy)) in H.
  split; [|split; [|split]].
  - cbn [step]. unfold as_out, gets. cbn [snd]. rewrite H. now destruct seng.
  - replace (last_accepted _ _) with (backend_str (h_be (w_heap w))) by (rewrite H; now destruct seng).
    destruct (h_be (w_heap w)); simpl; auto.
  - intros s Hs. cbn [step]. unfold as_out, set_lambda_backend. pose proof (backend_of_str_acc s) as Ha.
    destruct (backend_of_str s); [|split; reflexivity]. exfalso. apply Hs. destruct Ha as [_ <-]. destruct b; simpl; auto.
  - intros s [<-|[<-|[]]]; reflexivity.
Qed.
Print Assumptions C40_backend_selection_closed.

Example C40_nonvacuous :
  backend_requests [OSetBackend "sympy"; OSetBackend "numpy"] = ["sympy"; "numpy"] /\
  last_accepted "symengine" ["sympy"; "numpy"] = "sympy".
Proof. split; reflexivity. Qed.
