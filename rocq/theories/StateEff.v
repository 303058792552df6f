(** What each state-changing method does to the object it is called on, as functions on records. *)
From Verif Require Export SimHist.
Open Scope nat_scope.

Definition hput (h : heap) (o : nat) (r : rt1) : heap := set_objs h (list_set (h_objs h) o r).

Lemma hput_hput h o r1 r2 : hput (hput h o r1) o r2 = hput h o r2.
Proof.
  unfold hput, set_objs; simpl. f_equal. generalize (h_objs h). intros l. revert o.
  induction l as [|x l IH]; intros [|o]; simpl; auto. f_equal. apply IH.
Qed.
Lemma hput_self h o r : obj h o = Ok r -> hput h o r = h.
Proof.
  intros H. apply obj_nth in H. unfold hput, set_objs. destruct h as [a b c d l]; simpl in *. f_equal.
  revert o H. induction l as [|x l IH]; intros [|o] H; simpl in *; auto; [congruence|]. f_equal. now apply IH.
Qed.
Lemma obj_hput_same h o r0 r : obj h o = Ok r0 -> obj (hput h o r) o = Ok r.
Proof. apply obj_put_same. Qed.
Lemma obj_hput_other h o o' r : o <> o' -> obj (hput h o r) o' = obj h o'.
Proof. intros H. unfold hput. rewrite obj_put. destruct (Nat.eqb_spec o o'); [congruence|reflexivity]. Qed.
Lemma obj_hput_err h o o' r e : obj h o = Err e -> obj (hput h o r) o' = obj h o'.
Proof.
  intros H. unfold hput. rewrite obj_put.
  destruct (Nat.eqb_spec o o'); [subst|reflexivity]. simpl.
  destruct (Nat.ltb_spec o' (length (h_objs h))); [|reflexivity].
  apply nth_error_Some in H0. unfold obj in H. destruct (nth_error (h_objs h) o'); [discriminate|congruence].
Qed.
Lemma w_heap_put o r w : w_heap (fst (put_obj o r w)) = hput (w_heap w) o r. Proof. reflexivity. Qed.

(** [m] acts on object [o] as [f] does on its record, and on nothing else *)
Definition effOk {A} (m : M A) (o : nat) (f : rt1 -> rt1 * res A) : Prop :=
  forall w r, obj (w_heap w) o = Ok r ->
    w_heap (fst (m w)) = hput (w_heap w) o (fst (f r)) /\ snd (m w) = snd (f r).
(** ... and fails without effect if there is no such object *)
Definition effect {A} (m : M A) (o : nat) (f : rt1 -> rt1 * res A) : Prop :=
  effOk m o f /\
  forall w e, obj (w_heap w) o = Err e -> fst (m w) = w /\ snd (m w) = Err e.

Lemma effect_get {A} (k : rt1 -> M A) o f :
  (forall w r, obj (w_heap w) o = Ok r -> w_heap (fst (k r w)) = hput (w_heap w) o (fst (f r)) /\ snd (k r w) = snd (f r)) ->
  effect (bind (get_obj o) k) o f.
Proof.
  intros H. split.
  - intros w r E. unfold bind, get_obj, gets. rewrite E. now apply H.
  - intros w e E. unfold bind, get_obj, gets. rewrite E. split; reflexivity.
Qed.

(** sequencing of effects on the same object *)
Definition seqf {A B} (f : rt1 -> rt1 * res A) (g : A -> rt1 -> rt1 * res B) (r : rt1) : rt1 * res B :=
  match f r with (r', Ok a) => g a r' | (r', Err e) => (r', Err e) end.
Lemma effOk_bind {A B} (m : M A) (k : A -> M B) o f g :
  effOk m o f -> (forall a, effOk (k a) o (g a)) -> effOk (bind m k) o (seqf f g).
Proof.
  intros Hm Hk w r E. specialize (Hm w r E). unfold bind, seqf.
  destruct Hm as [Hh Hr]. destruct (m w) as [w' r1]. destruct (f r) as [r' r2]. simpl in *. subst r2.
  destruct r1 as [a|e]; [|split; [assumption|reflexivity]].
  assert (E' : obj (w_heap w') o = Ok r') by (rewrite Hh; eapply obj_hput_same; eassumption).
  destruct (Hk a w' r' E') as [Hk1 Hk2]. rewrite Hk1, Hh, hput_hput. split; [reflexivity|assumption].
Qed.
Lemma effOk_ret {A} o (a : A) : effOk (ret a) o (fun r => (r, Ok a)).
Proof. intros w r H. simpl. rewrite (hput_self _ _ _ H). split; reflexivity. Qed.
Lemma effOk_fail {A} o e : effOk (@fail A e) o (fun r => (r, Err e)).
Proof. intros w r H. simpl. rewrite (hput_self _ _ _ H). split; reflexivity. Qed.
Lemma effOk_upd o (f : rt1 -> rt1) :
  effOk (do r <- get_obj o ;; put_obj o (f r)) o (fun r => (f r, Ok tt)).
Proof. intros w r H. rewrite (bind_get _ _ _ _ H). split; reflexivity. Qed.
Lemma effOk_ext {A} (m : M A) o f g : effOk m o f -> (forall r, f r = g r) -> effOk m o g.
Proof. intros Hm Hf w r E. rewrite <- Hf. now apply Hm. Qed.

(** *** set_monostatic *)
Definition reset (m : bool) (r : rt1) : rt1 := with_fnev (with_fn (with_fixed (with_mode r m) []) None) None.
Definition mono_rec (p : option fixarg) (r : rt1) : rt1 * res unit :=
  let r1 := reset true r in
  match p with
  | Some FBad => (r1, Err AssertionError)
  | Some (FNum q) =>
      (with_geom (with_fixed (with_ang r1 P0 (PNum (Fin (Q2R q)))) [P0])
                 (mk_angs (ang_sym T0) (ang_sym T0) (ENum q) (ENum q)), Ok tt)
  | None => (with_geom r1 (mk_angs (ang_sym T0) (ang_sym T0) (ang_sym P0) (ang_sym P0)), Ok tt)
  end.

Lemma eff_mono o p : effect (set_monostatic o p) o (mono_rec p).
Proof.
  apply effect_get. intros w r Hr. rewrite put_clear, clear_then.
  rewrite <- (clear_heap w) in Hr. rewrite <- (clear_heap w).
  generalize dependent (fst (clear_geom_cache w)). clear w. intros w Hr.
  rewrite bind_put.
  pose proof (put_obj_obj o r (with_mode r true) w Hr) as Hr1.
  rewrite (bind_get _ _ _ _ Hr1), bind_put.
  destruct p as [[q|]|]; unfold mono_rec, reset; split; try reflexivity;
    cbn [fst]; rewrite ?w_heap_put; unfold fail; cbn [fst]; rewrite ?w_heap_put, ?hput_hput; reflexivity.
Qed.

(** *** set_bistatic *)
Definition bi_step (a : angle) (v : option fixarg) (r : rt1) : rt1 * res expr :=
  match v with
  | None => (r, Ok (ang_sym a))
  | Some FBad => (r, Err AssertionError)
  | Some (FNum q) =>
      let r1 := with_ang r a (PNum (Fin (Q2R q))) in (with_fixed r1 (a :: r_fixed r), Ok (ENum q))
  end.
Definition bi_rec (t0 tex p0 pex : option fixarg) (r : rt1) : rt1 * res unit :=
  seqf (bi_step T0 t0) (fun e0 => seqf (bi_step TEx tex) (fun e1 =>
    seqf (bi_step P0 p0) (fun e2 => seqf (bi_step PEx pex) (fun e3 r =>
      (with_geom r (mk_angs e0 e1 e2 e3), Ok tt))))) (reset false r).

Lemma eff_bi_step o a v : effOk (bistatic_step o a v) o (bi_step a v).
Proof.
  unfold bistatic_step, bi_step. destruct v as [[q|]|].
  - intros w r Hr. rewrite (bind_get _ _ _ _ Hr), bind_put. split; reflexivity.
  - apply effOk_fail.
  - apply effOk_ret.
Qed.
Lemma eff_bi o a b c d : effect (set_bistatic o a b c d) o (bi_rec a b c d).
Proof.
  apply effect_get. intros w r Hr. rewrite put_clear, clear_then.
  rewrite <- (clear_heap w) in Hr. rewrite <- (clear_heap w).
  generalize dependent (fst (clear_geom_cache w)). clear w. intros w Hr.
  rewrite bind_put.
  pose proof (put_obj_obj o r (with_mode r false) w Hr) as Hr1.
  rewrite (bind_get _ _ _ _ Hr1), bind_put.
  set (r1 := with_fnev _ _).
  pose proof (put_obj_obj o _ r1 _ Hr1) as Hr2.
  match goal with |- w_heap (fst (?m ?x)) = _ /\ _ =>
    assert (HE : effOk m o (seqf (bi_step T0 a) (fun e0 => seqf (bi_step TEx b) (fun e1 =>
      seqf (bi_step P0 c) (fun e2 => seqf (bi_step PEx d) (fun e3 r => (with_geom r (mk_angs e0 e1 e2 e3), Ok tt)))))))
  end.
  { do 4 (apply effOk_bind; [apply eff_bi_step|intros]). apply effOk_upd. }
  destruct (HE _ _ Hr2) as [H1 H2]. rewrite H1, H2, !w_heap_put, !hput_hput. split; reflexivity.
Qed.

(** *** set_geometry *)
Fixpoint geo_loop (kw : list (angle * option pyval)) (r : rt1) : rt1 * res unit :=
  match kw with
  | [] => (r, Ok tt)
  | (a, v) :: kw' =>
      if existsb (angle_eqb a) (r_fixed r) then (r, Err AssertionError)
      else match v with
           | None => (r, Err AssertionError)
           | Some x => geo_loop kw' (with_ang r a x)
           end
  end.
Lemma eff_geo_loop o kw : effOk (set_geometry_loop o kw) o (geo_loop kw).
Proof.
  induction kw as [|[a v] kw IH]; [apply effOk_ret|].
  intros w r Hr. cbn [set_geometry_loop geo_loop]. rewrite (bind_get _ _ _ _ Hr).
  destruct (existsb (angle_eqb a) (r_fixed r)); [now apply effOk_fail|].
  destruct v as [x|]; [|now apply effOk_fail].
  rewrite bind_put. pose proof (put_obj_obj o r (with_ang r a x) w Hr) as Hr1.
  destruct (IH _ _ Hr1) as [H1 H2]. rewrite H1, H2, w_heap_put, hput_hput. split; reflexivity.
Qed.

Definition ang_kw (kw : dict (option pyval)) : res (list (angle * option pyval)) :=
  rmap (fun kv => opt_res (option_map (fun a => (a, snd kv)) (angle_of_str (fst kv))) TypeError) kw.
Definition geo_rec (kw : dict (option pyval)) (r : rt1) : rt1 * res unit :=
  match ang_kw kw with
  | Err e => (r, Err e)
  | Ok akw =>
      if existsb (fun av => angle_eqb TEx (fst av) || angle_eqb PEx (fst av)) akw && r_mono r
      then (r, Err AssertionError) else geo_loop akw r
  end.
Lemma eff_geo o kw : effOk (set_geometry o kw) o (geo_rec kw).
Proof.
  intros w r Hr. unfold set_geometry, geo_rec. fold (ang_kw kw).
  destruct (ang_kw kw) as [akw|e]; [|now apply effOk_fail].
  rewrite (bind_get _ _ _ _ Hr). destruct (_ && _); [now apply effOk_fail|].
  rewrite clear_then. rewrite <- (clear_heap w) in Hr. rewrite <- (clear_heap w).
  now apply eff_geo_loop.
Qed.
Lemma eff_geo_err o kw w e : obj (w_heap w) o = Err e -> w_heap (fst (set_geometry o kw w)) = w_heap w.
Proof.
  intros H. unfold set_geometry. destruct (rmap _ kw); [|reflexivity].
  unfold bind, get_obj, gets. rewrite H. reflexivity.
Qed.

(** *** the parameter and attribute setters *)
Lemma eff_update o kw : effect (update_params o kw) o (fun r => (upd_rec r kw, Ok tt)).
Proof. apply effect_get. intros w r H. split; reflexivity. Qed.
Lemma eff_set_def o p d : effOk (set_def o p d) o (fun r => (with_def r p d, Ok tt)).
Proof.
  intros w r H. unfold set_def.
  change ((clear_param_cache ;;; (do r <- get_obj o ;; put_obj o (with_def r p d))) w)
    with ((do r <- get_obj o ;; put_obj o (with_def r p d)) (fst (clear_param_cache w))).
  assert (H' : obj (w_heap (fst (clear_param_cache w))) o = Ok r) by exact H.
  rewrite (bind_get _ _ _ _ H'). split; reflexivity.
Qed.
