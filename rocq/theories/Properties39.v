(** C102: an evaluation that is interrupted (KeyboardInterrupt, MemoryError, ... between any two steps) does no
    harm: the object is as after update_params() with the same parameters, and the call can be repeated. *)
From Verif Require Import Stable StateProps2 Memo PlotFacts Sessions Lazy Properties14 Properties15 Properties37 Threads.
From Coq Require Import Reals Lra Lia.
Open Scope string_scope.
Open Scope nat_scope.
Open Scope list_scope.

(** the world after the first [n] steps of a call (all of it, if it has fewer) *)
Fixpoint stopped {A} (n : nat) (p : prog A) (w : world) : world :=
  match n, p with
  | S n, @Act _ _ m k => stopped n (k (snd (m w))) (fst (m w))
  | _, _ => w
  end.

(** ** The objects along an evaluation *)
Section Walk.
  Context (h : heap) (o : nat) (r1 : rt1) (l0 : list rt1).
  Hypothesis Hl0 : nth_error l0 o <> None.
  Definition kept (u : world) : Prop := w_on u = false /\ exists r', w_heap u = set_objs h (list_set l0 o r') /\ same_obj h r1 r'.
  Fixpoint walk {A} (u : world) (p : prog A) : Prop :=
    kept u /\ match p with Done _ => True | @Act _ _ m k => walk (fst (m u)) (k (snd (m u))) end.
  Definition gw {A} (p : prog A) : Prop := forall u, kept u -> walk u p.
  Lemma walk_stopped {A} (p : prog A) : forall n u, walk u p -> kept (stopped n p u).
  Proof. induction p as [r|C m k IH]; intros [|n] u [H1 H2]; cbn [stopped]; auto. Qed.
  Lemma gw_ret {A} (x : res A) : gw (Done x). Proof. intros u H. split; [exact H|exact I]. Qed.
  Lemma gw_bind {A B} (p : prog A) (k : A -> prog B) : gw p -> (forall a, gw (k a)) -> gw (pbind p k).
  Proof.
    intros Hp Hk u Hu. specialize (Hp u Hu). clear Hu. revert u Hp. induction p as [[a|e]|C m f IH]; intros u [H1 H2]; cbn in *; [now apply Hk|split; auto|]. split; auto.
  Qed.
  Lemma gw_catch {A} (p : prog A) (k : exn -> prog A) : gw p -> (forall a, gw (k a)) -> gw (pcatch p k).
  Proof.
    intros Hp Hk u Hu. specialize (Hp u Hu). clear Hu. revert u Hp. induction p as [[a|e]|C m f IH]; intros u [H1 H2]; cbn in *; [split; auto|now apply Hk|]. split; auto.
  Qed.
  Lemma gw_out {A} (f : A -> out) (p : prog A) : gw p -> gw (pout f p).
  Proof.
    intros Hp u Hu. specialize (Hp u Hu). clear Hu. revert u Hp. induction p as [[a|e]|C m g IH]; intros u [H1 H2]; cbn in *; split; auto.
  Qed.
  Lemma gw_atom {A} (m : M A) : (forall h, stab h m) -> gw (atom m).
  Proof.
    intros Hs u Hu. split; [exact Hu|]. cbn. split; [|exact I]. destruct Hu as (U1 & r' & U2 & U3). destruct (Hs (w_heap u)) as [x Hx]. destruct (Hx u U1 eq_refl) as (A1 & A2 & _).
    split; [exact A1|]. exists r'. rewrite A2. auto.
  Qed.
  Lemma kept_obj u : kept u -> exists r', obj (w_heap u) o = Ok r' /\ same_obj h r1 r' /\ w_heap u = set_objs h (list_set l0 o r').
  Proof.
    intros (_ & r' & E & S). exists r'. split; [|auto]. rewrite E. apply obj_nth. cbn [h_objs set_objs]. destruct (nth_error l0 o) as [r0|] eqn:E0; [|contradiction].
    eapply nth_error_list_set_same; exact E0.
  Qed.
  Lemma kept_put u r : kept u -> same_obj h r1 r -> kept (fst (put_obj o r u)).
  Proof.
    intros (U & r' & E & S) S'. split; [exact U|]. exists r. split; [|exact S']. cbn. rewrite E. cbn. rewrite list_set_twice. destruct h; reflexivity.
  Qed.
  (** the two steps that store something *)
  Lemma wk_fnevals : gw (p_fnevals o).
  Proof.
    intros u Hu. unfold p_fnevals. split; [exact Hu|]. destruct (kept_obj u Hu) as (r & Hr & S & Eh). cbn -[p_fn]. rewrite Hr. cbn -[p_fn].
    assert (K0 : forall A (x : res A), walk u (Done x)) by (intros; split; [exact Hu|exact I]).
    destruct (r_fnev r) as [c|] eqn:E1; [apply K0|]. destruct (r_fnevals_input r) as [c|] eqn:E2; [apply K0|]. destruct (r_intQ r) eqn:E3; [|apply K0].
    (** the tail: compile and store *)
    assert (Tail : forall u2 r2 f, kept u2 -> obj (w_heap u2) o = Ok r2 -> same_obj h r1 r2 -> w_heap u2 = set_objs h (list_set l0 o r2) -> r_fnev r2 = None -> fn_next h r2 = Ok (Some f) ->
       walk u2 (pbind (atom (gets (fun h => lambdify (h_be h) (h_seng h) (fn_angle_names ++ dkeys (r_params r)) f)))
                 (fun c => pbind (atom (do r <- get_obj o ;; put_obj o (with_fnev r (Some c)))) (fun _ => pret (Some c))))).
    { intros u2 r2 f Hu2 Hr2 S2 Eh2 En Ef. split; [exact Hu2|]. cbn. destruct (lambdify _ _ _ f) as [c|e] eqn:El; [|split; [exact Hu2|exact I]].
      cbn. split; [exact Hu2|]. unfold bind, get_obj, gets. rewrite Hr2. cbn [fst snd put_obj pbind]. split; [|exact I].
      apply (kept_put u2 (with_fnev r2 (Some c)) Hu2). apply (same_trans h r1 r2); [exact S2|]. split; [reflexivity|]. split; [reflexivity|].
      assert (S' : strip r2 = strip r) by (destruct S as (X & _), S2 as (Y & _); congruence). pose proof (strip_eq _ _ S') as Er.
      unfold fnev_next. rewrite En. cbn [with_fnev r_fnev]. replace (r_fnevals_input r2) with (@None compiled) by (rewrite Er; cbn; now rewrite E2).
      replace (r_intQ r2) with true by (rewrite Er; cbn; now rewrite E3). rewrite Ef. unfold p_comp. cbn [rbind conf c_backend c_seng c_params].
      rewrite dkeys_map. replace (r_params r2) with (r_params r) by (rewrite Er; reflexivity). rewrite Eh2 in El. cbn [h_be h_seng set_objs] in El. unfold fn_angle_names. cbn [app]. rewrite El. reflexivity. }
    unfold p_fn. split; [exact Hu|]. cbn. rewrite Hr. cbn.
    destruct (r_fn r) as [f|] eqn:E4; [cbn; apply (Tail u r f); auto; unfold fn_next; now rewrite E4|].
    destruct (r_fn_input r) as [f|] eqn:E5.
    { cbn. apply (Tail u r f); auto. unfold fn_next. rewrite E4. unfold PureCalc.p_fn. cbn. now rewrite E5. }
    rewrite E3. cbn. split; [exact Hu|]. rewrite Eh. cbn [h_be h_seng set_objs]. change (scat_at (set_objs h (list_set l0 o r))) with (scat_at h).
    match goal with |- context [match ?x with Ok _ => _ | Err _ => _ end] => destruct x as [f|e] eqn:Ex end; [|split; [exact Hu|exact I]].
    cbn. split; [exact Hu|]. unfold bind, get_obj, gets. rewrite Hr. cbn [fst snd]. 
    assert (Sf : same_obj h r1 (with_fn r (Some f)) /\ fn_next h (with_fn r (Some f)) = Ok (Some f)).
    { split; [|reflexivity]. apply (same_trans h r1 r); [exact S|]. split; [reflexivity|]. split; [reflexivity|]. unfold fnev_next. cbn [with_fn r_fnev r_fnevals_input r_intQ]. rewrite E1, E2, E3.
      change (conf h (with_fn r (Some f))) with (conf h r). f_equal. unfold fn_next. rewrite E4. cbn [with_fn r_fn]. unfold PureCalc.p_fn. cbn [conf c_fnin c_intQ c_V c_SRF c_geom c_backend c_seng]. rewrite E5, E3.
      destruct (scat_at h (r_V r)); [cbn [rbind] in Ex |- *|discriminate]. destruct (scat_at h (r_SRF r)); [cbn [rbind] in Ex |- *|discriminate].
      destruct (calc_fn _ _ _) as [g|]; [cbn [rbind] in Ex |- *|discriminate]. destruct (h_be h), (h_seng h); congruence. }
    pose proof (kept_put u _ Hu (proj1 Sf)) as Hu2. destruct (kept_obj _ Hu2) as (r2 & Hr2 & S2 & Eh2).
    assert (Er2 : r2 = with_fn r (Some f)).
    { cbn in Hr2. rewrite Eh in Hr2. apply obj_nth in Hr2. cbn in Hr2. rewrite list_set_twice in Hr2. destruct (nth_error l0 o) as [r0|] eqn:E0; [|contradiction].
      rewrite (nth_error_list_set_same _ _ _ _ E0) in Hr2. congruence. }
    subst r2. cbn [pbind snd put_obj]. apply (Tail _ (with_fn r (Some f)) f); [exact Hu2|exact Hr2|exact S2|exact Eh2|exact E1|reflexivity].
  Qed.
  Local Hint Resolve gw_ret wk_fnevals : gw.
  Ltac gwgo :=
    repeat first
      [ match goal with |- forall _, _ => intro end
      | solve [auto with gw]
      | match goal with
        | |- gw (pbind _ _) => apply gw_bind
        | |- gw (pcatch _ _) => apply gw_catch
        | |- gw (atom _) => apply gw_atom; intro; solve [stgo]
        | |- gw (pret _) => apply gw_ret
        | |- gw (pfail _) => apply gw_ret
        | |- gw (let '(_, _) := ?p in _) => destruct p
        | |- gw (match ?x with _ => _ end) => destruct x
        | |- gw (if ?x then _ else _) => destruct x
        end ].
  Lemma gw_eval p : gw (p_eval_param o p). Proof. unfold p_eval_param. gwgo. Qed.
  Local Hint Resolve gw_eval : gw.
  Lemma gw_val p : gw (p_param_val o p). Proof. unfold p_param_val. gwgo. Qed.
  Lemma gw_scat x : gw (p_scat o x). Proof. unfold p_scat. gwgo. Qed.
  Local Hint Resolve gw_val gw_scat : gw.
  Lemma gw_surface : gw (p_surface o). Proof. unfold p_surface. gwgo. Qed.
  Lemma gw_volume : gw (p_volume o). Proof. unfold p_volume. gwgo. Qed.
  Lemma gw_Fint f : gw (p_Fint o f). Proof. unfold p_Fint. destruct f; gwgo. Qed.
  Local Hint Resolve gw_surface gw_volume gw_Fint : gw.
  Lemma gw_interaction : gw (p_interaction o). Proof. unfold p_interaction. gwgo. Qed.
  Lemma gw_convert v : gw (p_convert o v). Proof. unfold p_convert. gwgo. Qed.
  Lemma gw_symbs : gw (p_symbs o). Proof. unfold p_symbs. gwgo. Qed.
  Local Hint Resolve gw_interaction gw_convert gw_symbs : gw.
  Lemma gw_body : gw (p_calc_body o). Proof. unfold p_calc_body. gwgo. Qed.
  Local Hint Resolve gw_body : gw.
  Lemma gw_entries n ks : gw (p_entries o n ks). Proof. induction ks as [|k ks IH]; cbn [p_entries]; gwgo. Qed.
  Local Hint Resolve gw_entries : gw.
  Lemma gw_jac ks f : gw (p_jacobian o ks f). Proof. unfold p_jacobian. gwgo. Qed.
  Lemma gw_handler (e : exn) : gw (
       match e with
       | TypeError | MissingParams _ =>
           sub ss <- p_symbs o ;;
           one r <- get_obj o ;;
           one symbs <- gets (fun h =>
             let* v := scat_at h (r_V r) in let* s := scat_at h (r_SRF r) in
             Ok (dedup_diff (ss ++ free_syms (phase_function v) ++ free_syms (phase_function s))
                            (angle_names ++ dkeys (r_params r)))) ;;
           match symbs with [] => @pfail (nd Xr.xr) e | _ => pfail (MissingParams symbs) end
       | _ => pfail e
       end).
  Proof. destruct e; gwgo. Qed.
  Lemma gw_api (f : nat -> prog (nd Xr.xr)) : gw (f o) -> gw (sub v <- f o ;; p_convert o v).
  Proof. intros H. gwgo. Qed.
End Walk.

(** ** The caches along an evaluation *)
Lemma stopped_sim {A} o Q (p : prog A) : forall n b u J w, safe o Q b u p -> Sim J w u -> HB (w_heap w) -> (In o J <-> b = true) ->
  exists J', Sim J' (stopped n p w) (stopped n p u) /\ HB (w_heap (stopped n p w)).
Proof.
  induction p as [r|C m k IH]; intros [|n] b u J w Hs HS HBw HJ; cbn [stopped]; try (exists J; split; assumption).
  destruct Hs as (b' & Hb & _ & _ & Hk & Hsim & Hs').
  set (J1 := if b' then o :: J else J). assert (HJ1 : In o J1 <-> b' = true).
  { unfold J1. destruct b'; [cbn; tauto|]. rewrite HJ. split; [intros E; exact (Hb E)|discriminate]. }
  assert (HS1 : Sim J1 w u) by (unfold J1; destruct b'; [now apply Sim_more|exact HS]).
  destruct (Hsim (rest (w_heap u)) J1 w u HS1 HBw HJ1) as [E1 S1].
  { destruct HS as (_ & U & _). repeat split; auto. }
  destruct (IH (snd (m u)) n b' (fst (m u)) J1 (fst (m w)) Hs' S1 (Hk _ HBw) HJ1) as (J' & A1 & A2). rewrite E1. exists J'. split; [exact A1|exact A2].
Qed.

(** ** C102 *)
(** the calls of C102 and the parameters they are given *)
Definition interruptible (p : op) : option (nat * dict pyval) :=
  match p with
  | OCalc o kw | OSurface o kw | OVolume o kw | OInteraction o kw => Some (o, kw)
  | OJacobian o _ _ => Some (o, [])
  | _ => None
  end.
Lemma int_uses p o kw : interruptible p = Some (o, kw) -> uses o p = true.
Proof. destruct p; cbn; intros E; try discriminate; injection E as <- <-; apply Nat.eqb_refl. Qed.
Lemma walk_bare h o r p kw n : HB h -> interruptible p = Some (o, kw) -> obj h o = Ok r ->
  kept h o (upd_rec r kw) (h_objs h) (stopped (S n) (p_op p) (bare h)).
Proof.
  intros HBh E Hr. pose proof (proj1 (obj_nth h o r) Hr) as Hn. assert (Hl : nth_error (h_objs h) o <> None) by congruence.
  set (u1 := fst (put_obj o (upd_rec r kw) (bare h))).
  assert (K1 : kept h o (upd_rec r kw) (h_objs h) u1).
  { split; [reflexivity|]. exists (upd_rec r kw). split; [cbn; destruct h; reflexivity|apply same_refl]. }
  assert (Hu : update_params o kw (bare h) = (u1, Ok tt)) by (rewrite update_params_eq, (bind_get o r); [reflexivity|exact Hr]).
  destruct p; cbn in E; try discriminate; injection E as <- <-; cbn [p_op].
  - unfold p_calc. cbn [stopped pcatch pbind pout atom]. rewrite Hu. cbn [fst snd pbind]. apply walk_stopped, gw_out; [|exact K1]. apply gw_catch; [apply gw_body; exact Hl|].
    intros e. apply gw_handler.
  - unfold p_api. cbn [stopped pbind pout atom]. rewrite Hu. cbn [fst snd pbind]. apply walk_stopped, gw_out; [|exact K1]. apply gw_api; now apply gw_surface.
  - unfold p_api. cbn [stopped pbind pout atom]. rewrite Hu. cbn [fst snd pbind]. apply walk_stopped, gw_out; [|exact K1]. apply gw_api; now apply gw_volume.
  - unfold p_api. cbn [stopped pbind pout atom]. rewrite Hu. cbn [fst snd pbind]. apply walk_stopped, gw_out; [|exact K1]. apply gw_api; now apply gw_interaction.
  - apply walk_stopped, gw_out; [now apply gw_jac|]. split; [reflexivity|]. exists r. rewrite (upd_rec_nil h o0 r HBh Hr). split; [|apply same_refl].
    cbn. now rewrite (list_set_self _ _ _ Hn), set_objs_same.
Qed.

(** names given to an interrupted call are in param_dict afterwards *)
Lemma upd_names r kw : incl (dkeys kw) (dkeys (r_params (upd_rec r kw))).
Proof.
  intros x Hx. unfold upd_rec. cbn [r_params with_params]. apply In_dupdate_kw. rewrite dkeys_map. unfold upd_kw.
  destruct (r_def r Bsf) as [[]| |]; try exact Hx. destruct (_ && _); [|exact Hx]. unfold dkeys. rewrite map_app. apply in_or_app. now left.
Qed.
Lemma dict_ext {A} (d : dict A) : forall d', NoDup (dkeys d) -> dkeys d' = dkeys d -> (forall s, dget d' s = dget d s) -> d' = d.
Proof.
  induction d as [|[k v] d IH]; intros [|[k' v'] d'] N E G; try discriminate; [reflexivity|]. cbn in E. injection E as -> E. inversion N as [|? ? N1 N2]. subst.
  pose proof (G k) as Gk. cbn in Gk. rewrite String.eqb_refl in Gk. injection Gk as ->. f_equal. apply IH; [exact N2|exact E|].
  intros s. destruct (String.eqb_spec s k) as [->|Hs].
  - assert (X : forall e : dict A, ~ In k (dkeys e) -> dget e k = None).
    { induction e as [|[k1 v1] e IHe]; [reflexivity|]. cbn. intros X. destruct (String.eqb_spec k k1) as [->|]; [exfalso; tauto|]. apply IHe. tauto. }
    rewrite !X; [reflexivity|exact N1|unfold dkeys in *; now rewrite E].
  - specialize (G s). cbn in G. destruct (String.eqb_spec s k); [contradiction|exact G].
Qed.
Lemma upd_again r kw : In "bsf" (dkeys (r_params r)) -> NoDup (dkeys (r_params r)) -> upd_rec (upd_rec r kw) kw = upd_rec r kw.
Proof.
  intros B N. pose proof (upd_names r kw) as Hi. unfold upd_rec in *. rewrite (upd_kw_bsf r kw B) in *. set (kv := map (fun kv => (fst kv, S1d (snd kv))) kw) in *.
  set (d := dupdate (r_params r) kv) in *. cbn [r_params with_params] in Hi. rewrite upd_kw_bsf by (cbn [r_params with_params]; apply In_dkeys_dupdate; exact B).
  fold kv. cbn [r_params with_params]. replace (dupdate d kv) with d; [reflexivity|]. symmetry. apply dict_ext; [now apply dupdate_nodup|apply dkeys_dupdate_in; unfold kv; now rewrite dkeys_map|].
  intros s. unfold d. rewrite !StateProps2.dget_dupdate. destruct (last_of kv s); reflexivity.
Qed.

Section Stop.
  Context (seng : bool) (ps : list op) (o : nat) (p : op) (kw : dict pyval) (r : rt1).
  Notation w := (fst (run (init seng true) ps)).
  Hypothesis Ha : adm [] (init seng true) (ps ++ [p]).
  Hypothesis Hp : interruptible p = Some (o, kw).
  Hypothesis Hr : obj (w_heap w) o = Ok r.
  Lemma upd_world : exists J, Sim J (fst (step w (OUpdate o kw))) (fst (step (bare (w_heap w)) (OUpdate o kw))) /\ HB (w_heap (fst (step w (OUpdate o kw)))) /\
    w_heap (fst (step w (OUpdate o kw))) = set_objs (w_heap w) (list_set (h_objs (w_heap w)) o (upd_rec r kw)).
  Proof.
    destruct (adm_split seng ps [p] Ha) as (HS & HBw & A1 & _). set (J := fold_left J_after ps []) in *.
    assert (Au : adm1 J (w_heap w) (OUpdate o kw)).
    { destruct p; cbn in Hp; try discriminate; injection Hp as <- <-; try exact A1. intros _ r0 _ x []. }
    destruct (step_sim J w _ _ HS HBw Au) as [_ S1]. exists J. split; [exact S1|]. split; [now apply step_HB|].
    assert (E : w_heap (fst (step w (OUpdate o kw))) = w_heap (fst (step (bare (w_heap w)) (OUpdate o kw)))) by apply S1. rewrite E. cbn [step]. rewrite fst_as_out.
    rewrite update_params_eq, (bind_get o r); [|exact Hr]. reflexivity.
  Qed.
  Lemma stop_heap n : exists J u, Sim J (stopped (S n) (p_op p) w) u /\ HB (w_heap (stopped (S n) (p_op p) w)) /\
    lazy_eq (w_heap (fst (step w (OUpdate o kw)))) (w_heap (stopped (S n) (p_op p) w)).
  Proof.
    destruct (adm_split seng ps [p] Ha) as (HS & HBw & A1 & _). set (J := fold_left J_after ps []) in *. set (h := w_heap w) in *.
    set (b := if in_dec Nat.eq_dec o J then true else false). assert (HJb : In o J <-> b = true) by (unfold b; destruct (in_dec Nat.eq_dec o J); intuition discriminate).
    assert (Hsafe : safe o (fun _ _ _ => True) b (bare h) (p_op p)) by (apply (op_safe o p b (bare h) J); [now apply (int_uses p o kw)|exact HJb|exact A1|exact I]).
    destruct (stopped_sim o _ (p_op p) (S n) b (bare h) J w Hsafe HS HBw HJb) as (J' & S1 & B1). exists J', (stopped (S n) (p_op p) (bare h)). split; [exact S1|]. split; [exact B1|].
    destruct (walk_bare h o r p kw n HBw Hp Hr) as (_ & r' & E & Sx). assert (E1 : w_heap (stopped (S n) (p_op p) w) = w_heap (stopped (S n) (p_op p) (bare h))) by apply S1.
    destruct upd_world as (_ & _ & _ & Eu). fold h in Eu. rewrite Eu, E1, E. exists (list_set (h_objs h) o r'). split; [destruct h; reflexivity|]. cbn [h_objs set_objs]. apply F2_set; [apply F2_refl|exact Sx].
  Qed.
End Stop.

(** After an interruption at any point, everything that is evaluated or read later is as if only
    update_params() had been called with the parameters of the interrupted call. *)
Theorem C102_interrupted seng ps o p kw n c :
  let w := fst (run (init seng true) ps) in
  adm [] (init seng true) (ps ++ [p]) -> interruptible p = Some (o, kw) -> (exists r, obj (w_heap w) o = Ok r) ->
  let w' := match n with 0 => w | _ => fst (step w (OUpdate o kw)) end in
  later w' c -> snd (run (stopped n (p_op p) w) c) = snd (run w' c).
Proof.
  intros w Ha Hp [r Hr] w' Hc. destruct n as [|n]; [reflexivity|]. destruct (stop_heap seng ps o p kw r Ha Hp Hr n) as (J1 & u1 & S1 & B1 & L1).
  destruct (upd_world seng ps o p kw r Ha Hp Hr) as (J2 & S2 & B2 & _). exact (lazy_run c _ _ _ _ _ _ S2 S1 B2 L1 Hc).
Qed.
Print Assumptions C102_interrupted.
(** In particular the interrupted call can be repeated: it returns what it would have returned. *)
Theorem C102_retry seng ps o p kw n :
  let w := fst (run (init seng true) ps) in
  adm [] (init seng true) (ps ++ [p]) -> interruptible p = Some (o, kw) -> (exists r, obj (w_heap w) o = Ok r) ->
  snd (step (stopped n (p_op p) w) p) = snd (step w p).
Proof.
  intros w Ha Hp [r Hr]. destruct n as [|n]; [reflexivity|]. destruct (upd_world seng ps o p kw r Ha Hp Hr) as (J2 & S2 & B2 & Eu).
  destruct (adm_split seng ps [p] Ha) as (HS & HBw & A1 & _). fold w in HS, HBw, A1, S2, B2, Eu. set (h := w_heap w) in *. set (w1 := fst (step w (OUpdate o kw))) in *.
  pose proof (proj1 (obj_nth h o r) Hr) as Hn. assert (Hr1 : obj (w_heap w1) o = Ok (upd_rec r kw)) by (rewrite Eu; apply obj_nth; cbn; eapply nth_error_list_set_same; exact Hn).
  assert (K1 : known (w_heap w1) p).
  { exists o, (upd_rec r kw). split; [now apply (int_uses p o kw)|]. split; [exact Hr1|]. destruct p; cbn in Hp; try discriminate; injection Hp as <- <-; try exact I; apply upd_names. }
  assert (N : NoDup (dkeys (r_params r))) by (exact (proj1 (proj2 (proj1 (good_keys w p (good_plain seng ps p Ha))) o r Hr))).
  pose proof (C102_interrupted seng ps o p kw (S n) [p] Ha Hp (ex_intro _ r Hr) (conj K1 I)) as E. cbv zeta in E. fold w w1 in E.
  assert (E0 : forall x y : out, [x] = [y] -> x = y) by (intros x y X; now injection X).
  assert (R1 : forall v q, snd (run v [q]) = [snd (step v q)]) by (intros v q; cbn [run]; destruct (step v q); reflexivity).
  rewrite !R1 in E. apply E0 in E. rewrite E.
  destruct (step_sim J2 w1 _ p (Sim_bare _ _ _ S2) B2 (known_adm _ _ _ K1)) as [E1 _]. destruct (step_sim _ w _ p HS HBw A1) as [E2 _]. rewrite E1, E2.
  change (snd (step (bare (w_heap w1)) p)) with (eval (w_heap w1) p). change (snd (step (bare h) p)) with (eval h p).
  destruct (known_answer _ p o _ K1 (int_uses p o kw Hp) Hr1) as [A2 _]. rewrite A2, Eu, conf_set_objs, fnev_set_objs.
  pose proof (HBw o r Hr) as Hb.
  destruct p; cbn in Hp; try discriminate; injection Hp as <- <-; cbn [rec_after answer]; rewrite ?(upd_again r _ Hb N); symmetry.
  - apply eval_calc; exact Hr.
  - apply eval_surface; exact Hr.
  - apply eval_volume; exact Hr.
  - apply eval_interaction; exact Hr.
  - rewrite (upd_rec_nil h o0 r HBw Hr). apply eval_jacobian; exact Hr.
Qed.
Print Assumptions C102_retry.

(** deciding [later] *)
Definition knownb (h : heap) (q : op) : bool :=
  match target q with
  | None => false
  | Some o =>
      uses o q &&
      match obj h o with
      | Err _ => false
      | Ok r =>
          match q with
          | OCalc _ kw | OSurface _ kw | OVolume _ kw | OInteraction _ kw | OUpdate _ kw => forallb (fun k => mem k (dkeys (r_params r))) (dkeys kw)
          | OJacobian _ _ _ | OReadAngle _ _ | OReadParam _ _ | OParamDict _ => true
          | _ => false
          end
      end
  end.
Lemma knownb_known h q : knownb h q = true -> known h q.
Proof.
  unfold knownb. destruct (target q) as [o|]; [|discriminate]. intros E. apply andb_true_iff in E. destruct E as [U E].
  destruct (obj h o) as [r|] eqn:Hr; [|discriminate]. exists o, r. split; [exact U|]. split; [exact Hr|].
  destruct q; try discriminate E; try exact I; intros x Hx; apply mem_In; rewrite forallb_forall in E; now apply E.
Qed.
Fixpoint laterb (w : world) (c : list op) : bool :=
  match c with [] => true | q :: c => knownb (w_heap w) q && laterb (fst (step w q)) c end.
Lemma laterb_later c : forall w, laterb w c = true -> later w c.
Proof.
  induction c as [|q c IH]; intros w E; [exact I|]. cbn [laterb] in E. apply andb_true_iff in E. destruct E as [E1 E2]. split; [now apply knownb_known|now apply IH].
Qed.

(** calc() with a new value of tau, stopped after 0, 1, ..., 39 steps (it has more); evaluated again afterwards *)
Definition stopped_call : op := OCalc 0 [("tau", PNum (Fin (1/2))); ("omega", PNum (Fin (1/4)))].
Definition evaluated_later : list op := [OSurface 0 [("tau", PNum (Fin 1))]; OReadParam 0 Omega; OJacobian 0 ["tau"; "t"] "list"; stopped_call].
Example C102_nonvacuous :
  let ps := histS [] [1; 3] in let w := fst (run (init true true) ps) in
  adm [] (init true true) (ps ++ [stopped_call]) /\ interruptible stopped_call = Some (0, kws stopped_call) /\ (exists r, obj (w_heap w) 0 = Ok r) /\
  later (fst (step w (OUpdate 0 (kws stopped_call)))) evaluated_later /\
  map (fun n => kinds (snd (run (stopped n (p_op stopped_call) w) evaluated_later))) [0; 1; 20; 39] = repeat [1; 1; 2; 1] 4 /\
  Nat.leb 40 (len (p_op stopped_call) w) = true.
Proof.
  cbv zeta. split; [apply histS_adm; unfold stopped_call; admx|]. split; [reflexivity|]. split; [|split; [apply laterb_later; vm_compute; reflexivity|split; vm_compute; reflexivity]].
  assert (E : match obj (w_heap (fst (run (init true true) (histS [] [1; 3])))) 0 with Ok _ => true | Err _ => false end = true) by (vm_compute; reflexivity).
  destruct (obj _ 0) as [r|]; [now exists r|discriminate E].
Qed.
