(** Proofs of C02, C03, C07, C10, C40. *)
From Verif Require Export StateProps.
Open Scope nat_scope.

(** ** C02 *)

(** what reading back a value passed by the caller gives *)
Definition value_out (h : heap) (v : pyval) : out :=
  match deref h v with Ok a => RetArr (atleast_1d a) | Err e => Raised e end.

(** every attribute of [r'] other than the angles is that of [r] *)
Definition same_but_angles (r r' : rt1) : Prop :=
  r_V r' = r_V r /\ r_SRF r' = r_SRF r /\ r_intQ r' = r_intQ r /\ r_sig0 r' = r_sig0 r /\
  r_dB r' = r_dB r /\ r_fn_input r' = r_fn_input r /\ r_fnevals_input r' = r_fnevals_input r /\
  r_I0 r' = r_I0 r /\ r_def r' = r_def r /\ r_params r' = r_params r /\ r_fixed r' = r_fixed r /\
  r_mono r' = r_mono r /\ r_geom r' = r_geom r /\ r_fn r' = r_fn r /\ r_fnev r' = r_fnev r /\
  r_plots r' = r_plots r.
Lemma sba_refl r : same_but_angles r r. Proof. repeat split. Qed.
Lemma sba_ang r r' a v : same_but_angles r r' -> same_but_angles r (with_ang r' a v).
Proof. intros H. unfold same_but_angles in *. simpl. exact H. Qed.
Lemma sba_trans r1 r2 r3 : same_but_angles r1 r2 -> same_but_angles r2 r3 -> same_but_angles r1 r3.
Proof. unfold same_but_angles. intuition congruence. Qed.

Lemma angle_eqb_eq a b : angle_eqb a b = true <-> a = b.
Proof. destruct a, b; simpl; split; congruence. Qed.
Lemma angle_eqb_refl a : angle_eqb a a = true. Proof. now destruct a. Qed.

Lemma geo_loop_ok akw : forall r r', geo_loop akw r = (r', Ok tt) -> NoDup (map fst akw) ->
  same_but_angles r r' /\
  (forall a v, In (a, v) akw -> exists x, v = Some x /\ r_ang r' a = Some x /\ existsb (angle_eqb a) (r_fixed r) = false) /\
  (forall a, ~ In a (map fst akw) -> r_ang r' a = r_ang r a).
Proof.
  induction akw as [|[a v] akw IH]; intros r r' H Hnd; simpl in H.
  - injection H as <-. split; [apply sba_refl|]. split; [intros a v []|reflexivity].
  - destruct (existsb (angle_eqb a) (r_fixed r)) eqn:Ef; [discriminate|].
    destruct v as [x|]; [|discriminate].
    inversion Hnd as [|? ? Hn Hd]; subst. destruct (IH _ _ H Hd) as (H1 & H2 & H3).
    split; [|split].
    + eapply sba_trans; [|exact H1]. apply sba_ang, sba_refl.
    + intros b v [E|Hin].
      * injection E as <- <-. exists x. split; [reflexivity|]. rewrite (H3 a Hn). simpl. rewrite angle_eqb_refl. auto.
      * destruct (H2 b v Hin) as (y & Hy1 & Hy2 & Hy3). exists y. auto.
    + intros b Hb. simpl in Hb. rewrite H3 by tauto. simpl.
      destruct (angle_eqb a b) eqn:E; [apply angle_eqb_eq in E; subst; tauto|reflexivity].
Qed.
Lemma geo_loop_err akw a v r : In (a, v) akw ->
  v = None \/ existsb (angle_eqb a) (r_fixed r) = true -> exists e, snd (geo_loop akw r) = Err e.
Proof.
  revert r. induction akw as [|[b x] akw IH]; intros r Hin Hv; [destruct Hin|]. simpl.
  destruct (existsb (angle_eqb b) (r_fixed r)) eqn:Ef; [simpl; eauto|].
  destruct x as [x|]; [|simpl; eauto]. destruct Hin as [E|Hin].
  - inversion E; subst. destruct Hv; congruence.
  - apply IH; [assumption|]. exact Hv.
Qed.

Lemma ang_kw_in kw akw : ang_kw kw = Ok akw ->
  (forall k v, In (k, v) kw -> exists a, angle_of_str k = Some a /\ In (a, v) akw) /\
  (forall a v, In (a, v) akw -> exists k, angle_of_str k = Some a /\ In (k, v) kw).
Proof.
  unfold ang_kw. revert akw. induction kw as [|[k v] kw IH]; intros akw H; simpl in H.
  - injection H as <-. split; [intros k v []|intros a v []].
  - destruct (angle_of_str k) as [a|] eqn:Ea; [|discriminate]. simpl in H.
    apply rbind_Ok in H. destruct H as (l & Hl & H). injection H as <-.
    destruct (IH l Hl) as [I1 I2]. split.
    + intros k' v' [E|Hin]; [injection E as <- <-; exists a; simpl; auto|].
      destruct (I1 _ _ Hin) as (b & Hb1 & Hb2). exists b. simpl; auto.
    + intros a' v' [E|Hin]; [injection E as <- <-; exists k; simpl; auto|].
      destruct (I2 _ _ Hin) as (b & Hb1 & Hb2). exists b. simpl; auto.
Qed.
Lemma angle_of_str_inj k k' a : angle_of_str k = Some a -> angle_of_str k' = Some a -> k = k'.
Proof.
  unfold angle_of_str.
  destruct (String.eqb_spec k "t_0"), (String.eqb_spec k "t_ex"), (String.eqb_spec k "p_0"), (String.eqb_spec k "p_ex"),
   (String.eqb_spec k' "t_0"), (String.eqb_spec k' "t_ex"), (String.eqb_spec k' "p_0"), (String.eqb_spec k' "p_ex"); subst; congruence.
Qed.
Lemma ang_kw_nodup kw akw : ang_kw kw = Ok akw -> NoDup (map fst kw) -> NoDup (map fst akw).
Proof.
  revert akw. induction kw as [|[k v] kw IH]; intros akw H Hnd.
  - injection H as <-. constructor.
  - unfold ang_kw in H. simpl in H.
    destruct (angle_of_str k) as [a|] eqn:Ea; [|discriminate]. simpl in H.
    apply rbind_Ok in H. destruct H as (l & Hl & H). injection H as <-.
    inversion Hnd as [|? ? Hn Hd]; subst. simpl. constructor; [|apply IH; assumption].
    intros Hin. apply in_map_iff in Hin. destruct Hin as ([b x] & E & Hin). simpl in E. subst b.
    destruct (ang_kw_in kw l Hl) as [_ I2]. destruct (I2 _ _ Hin) as (k' & Hk & Hk').
    apply Hn. assert (k' = k) by (eapply angle_of_str_inj; eassumption). subst.
    change k with (fst (k, x)). apply in_map. assumption.
Qed.
Lemma ang_kw_err kw k v : In (k, v) kw -> angle_of_str k = None -> exists e, ang_kw kw = Err e /\ e = TypeError.
Proof.
  unfold ang_kw. induction kw as [|[k' v'] kw IH]; intros Hin Hk; [destruct Hin|]. simpl.
  destruct Hin as [E|Hin].
  - injection E as -> ->. rewrite Hk. simpl. eauto.
  - destruct (angle_of_str k'); simpl; [|eauto]. destruct (IH Hin Hk) as (e & -> & ->). simpl. eauto.
Qed.

Definition is_exit (a : angle) : bool := match a with TEx | PEx => true | _ => false end.
Lemma exit_in (akw : list (angle * option pyval)) :
  existsb (fun av => angle_eqb TEx (fst av) || angle_eqb PEx (fst av)) akw = true <->
  exists a v, In (a, v) akw /\ is_exit a = true.
Proof.
  rewrite existsb_exists. split.
  - intros ([a v] & Hin & H). exists a, v. split; [assumption|]. destruct a; simpl in *; congruence.
  - intros (a & v & Hin & H). exists (a, v). split; [assumption|]. destruct a; simpl in *; congruence.
Qed.

Lemma read_bi h r a : (is_exit a = true -> r_mono r = false) -> read_ang h r a = stored_ang h r a.
Proof. destruct a; simpl; intros H; auto; now rewrite H. Qed.

Lemma as_out_none (m : M unit) w : snd (as_out none_of m w) = RetNone -> snd (m w) = Ok tt.
Proof. unfold as_out. destruct (m w) as [w' [[]|e]]; simpl; [reflexivity|discriminate]. Qed.
Lemma as_out_raise {A} f (m : M A) w e : snd (m w) = Err e -> snd (as_out f m w) = Raised e.
Proof. unfold as_out. destruct (m w) as [w' r]; simpl. intros ->. reflexivity. Qed.

Lemma step_readang w o r a : obj (w_heap w) o = Ok r ->
  snd (step w (OReadAngle o a)) = match read_ang (w_heap w) r a with Ok x => RetArr x | Err e => Raised e end.
Proof. intros H. cbn [step]. unfold as_out, m_ang, gets. rewrite H. reflexivity. Qed.

Lemma stored_value h r a v : r_ang r a = Some v ->
  match stored_ang h r a with Ok x => RetArr x | Err e => Raised e end = value_out h v.
Proof. intros H. unfold stored_ang, value_out. rewrite H. destruct (deref h v); reflexivity. Qed.

Lemma set_geo_spec w o kw r : obj (w_heap w) o = Ok r ->
  w_heap (fst (step w (OSetGeometry o kw))) = hput (w_heap w) o (fst (geo_rec kw r)) /\
  snd (step w (OSetGeometry o kw)) = match snd (geo_rec kw r) with Ok _ => RetNone | Err e => Raised e end.
Proof.
  intros Hr. destruct (eff_geo o kw w r Hr) as [H1 H2]. cbn [step]. rewrite fst_as_out. split; [exact H1|].
  unfold as_out. destruct (set_geometry o kw w) as [w' x]. simpl in *. subst x. destruct (snd (geo_rec kw r)); reflexivity.
Qed.

Lemma set_geo_ok w o kw : NoDup (map fst kw) ->
  snd (step w (OSetGeometry o kw)) = RetNone ->
  exists r r', obj (w_heap w) o = Ok r /\ w_heap (fst (step w (OSetGeometry o kw))) = hput (w_heap w) o r' /\
    obj (w_heap (fst (step w (OSetGeometry o kw)))) o = Ok r' /\
    same_but_angles r r' /\
    (forall k v, In (k, v) kw -> exists a x, angle_of_str k = Some a /\ v = Some x /\ r_ang r' a = Some x /\
         (is_exit a = true -> r_mono r = false)) /\
    (forall a, (forall k v, In (k, v) kw -> angle_of_str k <> Some a) -> r_ang r' a = r_ang r a).
Proof.
  intros Hnd H. destruct (obj (w_heap w) o) as [r|e] eqn:Er.
  2:{ exfalso. cbn [step] in H. apply as_out_none in H. unfold set_geometry in H.
      destruct (rmap _ kw); [|discriminate]. unfold bind, get_obj, gets in H. rewrite Er in H. discriminate. }
  destruct (set_geo_spec w o kw r Er) as [H1 H2]. rewrite H2 in H.
  exists r, (fst (geo_rec kw r)). split; [reflexivity|]. split; [exact H1|].
  split; [rewrite H1; eapply obj_hput_same; eassumption|].
  unfold geo_rec in *. destruct (ang_kw kw) as [akw|e] eqn:Ek; [|discriminate].
  destruct (existsb _ akw && r_mono r) eqn:Ex; [discriminate|].
  destruct (geo_loop akw r) as [r' x] eqn:El. simpl in *. destruct x as [[]|]; [|discriminate].
  destruct (geo_loop_ok akw r r' El (ang_kw_nodup _ _ Ek Hnd)) as (G1 & G2 & G3).
  destruct (ang_kw_in _ _ Ek) as [I1 I2]. split; [assumption|]. split.
  - intros k v Hin. destruct (I1 k v Hin) as (a & Ha & Hin'). destruct (G2 a v Hin') as (x & -> & Hx & _).
    exists a, x. repeat split; auto. intros He. destruct (r_mono r); [|reflexivity].
    rewrite andb_true_r in Ex. pose proof (proj2 (exit_in akw) (ex_intro _ a (ex_intro _ (Some x) (conj Hin' He)))) as X.
    simpl in X. congruence.
  - intros a Hn. apply G3. intros Hin. apply in_map_iff in Hin. destruct Hin as ([b v] & Eb & Hin). simpl in Eb; subst b.
    destruct (I2 a v Hin) as (k & Hk & Hin'). eapply Hn; eassumption.
Qed.

(** ** C03 *)
Definition mode_change (o : nat) (p : op) : Prop :=
  match p with OSetMono o' _ | OSetBi o' _ _ _ _ => o' = o | _ => False end.
Definition fixed_at (h : heap) (o : nat) (a : angle) (q : Q) : Prop :=
  exists r, obj h o = Ok r /\ existsb (angle_eqb a) (r_fixed r) = true /\
    r_ang r a = Some (PNum (Fin (Q2R q))) /\ (is_exit a = true -> r_mono r = false).

Lemma strip_fields r r' : strip r = strip r' -> r_fixed r = r_fixed r' /\ r_ang r = r_ang r' /\ r_mono r = r_mono r' /\ r_params r = r_params r'.
Proof.
  intros H. repeat split.
  - change (r_fixed (strip r) = r_fixed (strip r')). now rewrite H.
  - change (r_ang (strip r) = r_ang (strip r')). now rewrite H.
  - change (r_mono (strip r) = r_mono (strip r')). now rewrite H.
  - change (r_params (strip r) = r_params (strip r')). now rewrite H.
Qed.
Lemma geo_loop_fixed a akw : forall r, existsb (angle_eqb a) (r_fixed r) = true ->
  r_fixed (fst (geo_loop akw r)) = r_fixed r /\ r_ang (fst (geo_loop akw r)) a = r_ang r a /\ r_mono (fst (geo_loop akw r)) = r_mono r.
Proof.
  induction akw as [|[b v] akw IH]; intros r Hf; simpl; [auto|].
  destruct (existsb (angle_eqb b) (r_fixed r)) eqn:Eb; [auto|]. destruct v as [x|]; [|auto].
  destruct (IH (with_ang r b x) Hf) as (I1 & I2 & I3). rewrite I1, I2, I3. simpl. repeat split.
  destruct (angle_eqb b a) eqn:E; [apply angle_eqb_eq in E; subst; congruence|reflexivity].
Qed.
Lemma geo_rec_fixed a kw r : existsb (angle_eqb a) (r_fixed r) = true ->
  r_fixed (fst (geo_rec kw r)) = r_fixed r /\ r_ang (fst (geo_rec kw r)) a = r_ang r a /\ r_mono (fst (geo_rec kw r)) = r_mono r.
Proof.
  intros H. unfold geo_rec. destruct (ang_kw kw); [|auto]. destruct (_ && _); [auto|]. now apply geo_loop_fixed.
Qed.
Lemma step_obj_fixed p o r a : ~ mode_change o p -> existsb (angle_eqb a) (r_fixed r) = true ->
  r_fixed (step_obj p o r) = r_fixed r /\ r_ang (step_obj p o r) a = r_ang r a /\ r_mono (step_obj p o r) = r_mono r.
Proof.
  intros Hm Hf. destruct p; cbn [step_obj]; auto;
    try (match goal with |- context [?x =? o] => destruct (Nat.eqb_spec x o) end; auto).
  - now apply geo_rec_fixed.
  - exfalso; apply Hm; assumption.
  - exfalso; apply Hm; assumption.
Qed.
Lemma fixed_step w p o a q : ~ mode_change o p -> fixed_at (w_heap w) o a q -> fixed_at (w_heap (fst (step w p))) o a q.
Proof.
  intros Hm (r & Hr & Hf & Ha & He). destruct (step_obj_ex w p o r Hr) as (r' & Hr' & E).
  destruct (strip_fields _ _ E) as (E1 & E2 & E3 & _). destruct (step_obj_fixed p o r a Hm Hf) as (F1 & F2 & F3).
  exists r'. split; [assumption|]. rewrite E1, E2, E3, F1, F2, F3. auto.
Qed.
Lemma fixed_run ps : forall w o a q, Forall (fun p => ~ mode_change o p) ps ->
  fixed_at (w_heap w) o a q -> fixed_at (w_heap (fst (run w ps))) o a q.
Proof.
  induction ps as [|p ps IH]; intros w o a q Hall H; [assumption|].
  inversion Hall; subst. rewrite run_cons. cbn [fst]. apply IH; [assumption|]. now apply fixed_step.
Qed.

Definition fixed_by (p : op) (o : nat) (a : angle) (q : Q) : Prop :=
  match p with
  | OSetMono o' (Some (FNum q')) => o' = o /\ a = P0 /\ q' = q
  | OSetBi o' t0 tex p0 pex =>
      o' = o /\ match a with T0 => t0 | TEx => tex | P0 => p0 | PEx => pex end = Some (FNum q)
  | _ => False
  end.

Lemma seqf_ok {A B} (f : rt1 -> rt1 * res A) (g : A -> rt1 -> rt1 * res B) r b :
  snd (seqf f g r) = Ok b -> exists a, f r = (fst (f r), Ok a) /\ seqf f g r = g a (fst (f r)).
Proof. unfold seqf. destruct (f r) as [r' [a|e]]; simpl; [eauto|discriminate]. Qed.

Lemma bi_step_ok a v r : snd (bi_step a v r) <> Err AssertionError ->
  match v with
  | Some (FNum q) => fst (bi_step a v r) = with_fixed (with_ang r a (PNum (Fin (Q2R q)))) (a :: r_fixed r)
  | _ => fst (bi_step a v r) = r
  end.
Proof. destruct v as [[q|]|]; simpl; congruence. Qed.

Lemma bi_rec_fixed t0 tex p0 pex r a q :
  snd (bi_rec t0 tex p0 pex r) = Ok tt ->
  match a with T0 => t0 | TEx => tex | P0 => p0 | PEx => pex end = Some (FNum q) ->
  existsb (angle_eqb a) (r_fixed (fst (bi_rec t0 tex p0 pex r))) = true /\
  r_ang (fst (bi_rec t0 tex p0 pex r)) a = Some (PNum (Fin (Q2R q))).
Proof.
  unfold bi_rec, seqf, bi_step. intros H Ha.
  destruct t0 as [[|]|], tex as [[|]|], p0 as [[|]|], pex as [[|]|]; simpl in *; try discriminate;
    destruct a; try discriminate; injection Ha as ->; split; reflexivity.
Qed.

Lemma fixed_after w p o a q : fixed_by p o a q -> snd (step w p) = RetNone -> fixed_at (w_heap (fst (step w p))) o a q.
Proof.
  intros Hf H. destruct p; simpl in Hf; try contradiction.
  - destruct p0 as [[q'|]|]; try contradiction. destruct Hf as (-> & -> & ->).
    cbn [step] in *. rewrite fst_as_out. apply as_out_none in H. destruct (eff_mono o (Some (FNum q))) as [He Hn].
    destruct (obj (w_heap w) o) as [r|e] eqn:Er; [|destruct (Hn w e Er) as [_ X]; congruence].
    destruct (He w r Er) as [-> _]. eexists. split; [eapply obj_hput_same; eassumption|]. simpl. auto.
  - destruct Hf as (-> & Ha). cbn [step] in *. rewrite fst_as_out. apply as_out_none in H.
    destruct (eff_bi o t0 tex p0 pex) as [He Hn].
    destruct (obj (w_heap w) o) as [r|e] eqn:Er; [|destruct (Hn w e Er) as [_ X]; congruence].
    destruct (He w r Er) as [-> Hs]. rewrite Hs in H. eexists. split; [eapply obj_hput_same; eassumption|].
    destruct (bi_rec_fixed _ _ _ _ _ _ _ H Ha) as [F1 F2]. rewrite F1, F2, bi_rec_mono. auto.
Qed.

Lemma C03_fixed w p o a q ps : fixed_by p o a q -> snd (step w p) = RetNone ->
  Forall (fun p => ~ mode_change o p) ps ->
  let w' := fst (run w (p :: ps)) in
  snd (step w' (OReadAngle o a)) = RetArr (mk_nd [1] (fun _ => Fin (Q2R q))) /\
  (forall kw k v, In (k, v) kw -> angle_of_str k = Some a -> exists e, snd (step w' (OSetGeometry o kw)) = Raised e).
Proof.
  intros Hf Hs Hall w'. assert (HF : fixed_at (w_heap w') o a q).
  { unfold w'. rewrite run_cons. cbn [fst]. apply fixed_run; [assumption|]. now apply fixed_after. }
  destruct HF as (r & Hr & Hfix & Ha & He). split.
  - rewrite (step_readang _ _ _ _ Hr), read_bi by assumption. unfold stored_ang. rewrite Ha. reflexivity.
  - intros kw k v Hin Hk. destruct (set_geo_spec w' o kw r Hr) as [_ ->]. unfold geo_rec.
    destruct (ang_kw kw) as [akw|e] eqn:Ek; [|simpl; eauto].
    destruct (_ && _); [simpl; eauto|].
    destruct (ang_kw_in _ _ Ek) as [I1 _]. destruct (I1 k v Hin) as (b & Hb & Hin').
    assert (b = a) by congruence. subst b.
    destruct (geo_loop_err akw a v r Hin' (or_intror Hfix)) as [e ->]. eauto.
Qed.

(** ** C07 *)
(** the keyword arguments given for object [o] in a history, in order *)
Definition mentions1 (o : nat) (p : op) : list (string * pyval) :=
  match p with
  | OUpdate o' kw | OCalc o' kw | OSurface o' kw | OVolume o' kw | OInteraction o' kw =>
      if o' =? o then kw else []
  | _ => []
  end.
Definition mentions (o : nat) (ps : list op) : list (string * pyval) := flat_map (mentions1 o) ps.
(** the value given last for [k] *)
Fixpoint last_of {A} (l : list (string * A)) (k : string) : option A :=
  match l with
  | [] => None
  | (k', v) :: l' => match last_of l' k with
                     | Some x => Some x
                     | None => if String.eqb k k' then Some v else None
                     end
  end.

Definition s1d (kw : list (string * pyval)) : dict sval := map (fun kv => (fst kv, S1d (snd kv))) kw.
Lemma upd_rec_HB r kw : In "bsf"%string (dkeys (r_params r)) -> r_params (upd_rec r kw) = dupdate (r_params r) (s1d kw).
Proof.
  intros H. unfold upd_rec, upd_kw. apply mem_In in H.
  destruct (r_def r Bsf) as [[]| |]; try reflexivity. rewrite H. now rewrite andb_false_r.
Qed.
Lemma step_obj_params p o r : In "bsf"%string (dkeys (r_params r)) ->
  r_params (step_obj p o r) = dupdate (r_params r) (s1d (mentions1 o p)).
Proof.
  intros HB. destruct p; cbn [step_obj mentions1]; auto;
    try (match goal with |- context [?x =? o] => destruct (Nat.eqb_spec x o) end); auto;
    try (now rewrite upd_rec_HB).
  - unfold geo_rec. destruct (ang_kw kw) as [akw|]; [|reflexivity]. destruct (_ && _); [reflexivity|].
    clear. assert (E : forall r, r_params (fst (geo_loop akw r)) = r_params r); [|apply E].
    induction akw as [|[a v] akw IH]; intros r'; simpl; [reflexivity|].
    destruct (existsb _ _); [reflexivity|]. destruct v; [|reflexivity]. now rewrite IH.
  - now destruct p0 as [[|]|].
  - unfold bi_rec, seqf, bi_step. now destruct t0 as [[|]|], tex as [[|]|], p0 as [[|]|], pex as [[|]|].
Qed.
Lemma dupdate_app {A} (d : dict A) a b : dupdate d (a ++ b) = dupdate (dupdate d a) b.
Proof. unfold dupdate. apply fold_left_app. Qed.

Lemma params_run ps : forall w o r, HB (w_heap w) -> obj (w_heap w) o = Ok r ->
  exists r', obj (w_heap (fst (run w ps))) o = Ok r' /\ r_params r' = dupdate (r_params r) (s1d (mentions o ps)).
Proof.
  induction ps as [|p ps IH]; intros w o r Hb Hr; [exists r; auto|].
  destruct (step_obj_ex w p o r Hr) as (r1 & Hr1 & E1). destruct (strip_fields _ _ E1) as (_ & _ & _ & E).
  rewrite step_obj_params in E by (eapply Hb; eassumption).
  destruct (IH (fst (step w p)) o r1 (step_HB w p Hb) Hr1) as (r' & Hr' & E').
  exists r'. rewrite run_cons. split; [exact Hr'|]. rewrite E', E. cbn [mentions flat_map].
  unfold s1d. rewrite map_app. symmetry. apply dupdate_app.
Qed.

Lemma dget_dupdate {A} (d kw : dict A) k : dget (dupdate d kw) k = match last_of kw k with Some v => Some v | None => dget d k end.
Proof.
  revert d. induction kw as [|[k' v] kw IH]; intros d; [reflexivity|].
  change (dupdate d ((k', v) :: kw)) with (dupdate (dset d k' v) kw). rewrite IH. simpl.
  destruct (last_of kw k); [reflexivity|]. destruct (String.eqb_spec k k') as [->|Hne].
  - apply dget_dset_same.
  - apply dget_dset_other. congruence.
Qed.
Lemma dkeys_dupdate_prefix {A} (d kw : dict A) : exists extra, dkeys (dupdate d kw) = dkeys d ++ extra /\
  (forall k, In k extra -> In k (dkeys kw)).
Proof.
  revert d. induction kw as [|[k v] kw IH]; intros d; [exists []; rewrite app_nil_r; split; [reflexivity|intros ? []]|].
  change (dupdate d ((k, v) :: kw)) with (dupdate (dset d k v) kw). destruct (IH (dset d k v)) as (ex & E & Hin).
  rewrite dkeys_dset in E. destruct (mem k (dkeys d)).
  - exists ex. split; [assumption|]. intros x Hx. right. auto.
  - exists (k :: ex). rewrite E, <- app_assoc. split; [reflexivity|]. intros x [->|Hx]; [left; reflexivity|right; auto].
Qed.
Lemma last_of_map {A B} (f : A -> B) l k : last_of (map (fun kv => (fst kv, f (snd kv))) l) k = option_map f (last_of l k).
Proof.
  induction l as [|[k' v] l IH]; [reflexivity|]. simpl. rewrite IH. destruct (last_of l k); [reflexivity|].
  simpl. destruct (String.eqb k k'); reflexivity.
Qed.

Lemma params_nd_keys h r d : params_nd h r = Ok d -> dkeys d = dkeys (r_params r).
Proof.
  unfold params_nd. generalize (r_params r) as l. intros l. revert d. induction l as [|[k v] l IH]; intros d H; simpl in H.
  - injection H as <-. reflexivity.
  - apply rbind_Ok in H. destruct H as (x & Hx & H). apply rbind_Ok in Hx. destruct Hx as (a & Ha & Hx). injection Hx as <-.
    apply rbind_Ok in H. destruct H as (ys & Hy & H). injection H as <-. simpl. f_equal. now apply IH.
Qed.
Lemma params_nd_get h r d k : params_nd h r = Ok d ->
  match dget (r_params r) k with
  | Some v => exists a, sderef h v = Ok a /\ dget d k = Some a
  | None => dget d k = None
  end.
Proof.
  unfold params_nd. generalize (r_params r) as l. intros l. revert d. induction l as [|[k' v] l IH]; intros d H; simpl in H.
  - injection H as <-. reflexivity.
  - apply rbind_Ok in H. destruct H as (x & Hx & H). apply rbind_Ok in Hx. destruct Hx as (a & Ha & Hx). injection Hx as <-.
    apply rbind_Ok in H. destruct H as (ys & Hy & H). injection H as <-. simpl.
    destruct (String.eqb k k'); [eauto|]. now apply IH.
Qed.
Lemma step_pdict w o d : snd (step w (OParamDict o)) = RetDict d ->
  exists r, obj (w_heap w) o = Ok r /\ params_nd (w_heap w) r = Ok d.
Proof.
  cbn [step]. unfold as_out, gets. destruct (obj (w_heap w) o) as [r|e]; [|discriminate]. cbn [rbind].
  destruct (params_nd (w_heap w) r) as [d'|] eqn:E; [|discriminate]. simpl. intros H. injection H as <-. eauto.
Qed.

Definition no_mutation (p : op) : Prop := match p with OMutate _ _ => False | _ => True end.
Lemma run_arr ps : forall w a x, nth_error (h_arrs (w_heap w)) a = Some x -> Forall no_mutation ps ->
  nth_error (h_arrs (w_heap (fst (run w ps)))) a = Some x.
Proof.
  induction ps as [|p ps IH]; intros w a x H Hall; [assumption|]. inversion Hall; subst.
  rewrite run_cons. cbn [fst]. apply IH; [|assumption]. apply step_arr; [assumption|]. intros f ->. contradiction.
Qed.
Lemma deref_run ps w v x : deref (w_heap w) v = Ok x -> Forall no_mutation ps -> deref (w_heap (fst (run w ps))) v = Ok x.
Proof.
  destruct v as [y|a]; [auto|]. simpl. destruct (nth_error (h_arrs (w_heap w)) a) eqn:E; [|discriminate].
  intros H Hall. rewrite (run_arr _ _ _ _ E Hall). exact H.
Qed.
Lemma sderef_run ps w v x : sderef (w_heap w) v = Ok x -> Forall no_mutation ps -> sderef (w_heap (fst (run w ps))) v = Ok x.
Proof.
  destruct v as [v|v]; simpl; [apply deref_run|]. intros H Hall. apply rbind_Ok in H. destruct H as (a & Ha & H).
  rewrite (deref_run _ _ _ _ Ha Hall). exact H.
Qed.

Lemma run_HB ps : forall w, HB (w_heap w) -> HB (w_heap (fst (run w ps))).
Proof. induction ps as [|p ps IH]; intros w H; [assumption|]. rewrite run_cons. apply IH. now apply step_HB. Qed.

Lemma C07_params w0 ps o d d' seng on qs :
  w0 = fst (run (init seng on) qs) ->
  snd (step w0 (OParamDict o)) = RetDict d ->
  snd (step (fst (run w0 ps)) (OParamDict o)) = RetDict d' ->
  In "bsf"%string (dkeys d) /\
  (exists extra, dkeys d' = dkeys d ++ extra) /\
  (forall k v, last_of (mentions o ps) k = Some v ->
      exists a, deref (w_heap (fst (run w0 ps))) v = Ok a /\ dget d' k = Some (atleast_1d a)) /\
  (forall k, last_of (mentions o ps) k = None -> Forall no_mutation ps -> dget d' k = dget d k).
Proof.
  intros -> H H'. set (w := fst (run (init seng on) qs)) in *.
  assert (Hb : HB (w_heap w)) by (apply run_HB, HB_init).
  destruct (step_pdict _ _ _ H) as (r & Hr & Hd). destruct (step_pdict _ _ _ H') as (r' & Hr' & Hd').
  destruct (params_run ps w o r Hb Hr) as (r1 & Hr1 & E). assert (r1 = r') by congruence. subst r1.
  split; [rewrite (params_nd_keys _ _ _ Hd); eapply Hb; eassumption|]. split; [|split].
  - rewrite (params_nd_keys _ _ _ Hd), (params_nd_keys _ _ _ Hd'), E.
    destruct (dkeys_dupdate_prefix (r_params r) (s1d (mentions o ps))) as (ex & Ex & _). eauto.
  - intros k v Hk. pose proof (params_nd_get _ _ _ k Hd') as G. rewrite E, dget_dupdate in G.
    unfold s1d in G. rewrite last_of_map, Hk in G. simpl in G. destruct G as (a & Ha & G).
    apply rbind_Ok in Ha. destruct Ha as (x & Hx & Ha). injection Ha as <-. eauto.
  - intros k Hk Hm. pose proof (params_nd_get _ _ _ k Hd') as G. rewrite E, dget_dupdate in G.
    unfold s1d in G. rewrite last_of_map, Hk in G. simpl in G.
    pose proof (params_nd_get _ _ _ k Hd) as G0. destruct (dget (r_params r) k) as [v|]; [|congruence].
    destruct G as (a & Ha & ->). destruct G0 as (b & Hb0 & ->).
    rewrite (sderef_run ps _ _ _ Hb0 Hm) in Ha. congruence.
Qed.

(** ** C40 *)
Definition accepted (s : string) : bool := String.eqb s "sympy" || String.eqb s "symengine".
(** the value in force after a list of requests *)
Fixpoint last_accepted (cur : string) (ss : list string) : string :=
  match ss with [] => cur | s :: ss' => last_accepted (if accepted s then s else cur) ss' end.
Definition backend_requests (ps : list op) : list string :=
  flat_map (fun p => match p with OSetBackend s => [s] | _ => [] end) ps.

Lemma backend_of_str_acc s : match backend_of_str s with Some b => accepted s = true /\ backend_str b = s | None => accepted s = false end.
Proof.
  unfold backend_of_str, accepted. destruct (String.eqb_spec s "sympy"); [subst; auto|].
  destruct (String.eqb_spec s "symengine"); subst; auto.
Qed.
Lemma C40_run ps : forall w,
  backend_str (h_be (w_heap (fst (run w ps)))) = last_accepted (backend_str (h_be (w_heap w))) (backend_requests ps).
Proof.
  induction ps as [|p ps IH]; intros w; [reflexivity|]. rewrite run_cons. cbn [fst]. rewrite IH, step_be.
  destruct p; try reflexivity. cbn [backend_requests flat_map last_accepted app].
  pose proof (backend_of_str_acc s) as H. destruct (backend_of_str s); [destruct H as [-> ->]|rewrite H]; reflexivity.
Qed.
