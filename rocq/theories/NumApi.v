(** From API calls to the configuration functions, and relational lemmas about array code. *)
From Verif Require Export Direct FintEl.
Open Scope nat_scope.

Lemma eval_noobj h o e kw : obj h o = Err e -> eval h (OCalc o kw) = Raised e /\ eval h (OSurface o kw) = Raised e /\
  eval h (OVolume o kw) = Raised e /\ eval h (OInteraction o kw) = Raised e.
Proof.
  intros H. assert (e = Unmodelled). { unfold obj in H. destruct (nth_error (h_objs h) o); simpl in H; congruence. } subst e.
  assert (U : forall (m : M (nd xr)), (update_params o kw ;;; m) (bare h) = (bare h, Err Unmodelled)).
  { intros m. unfold update_params, bind, get_obj, gets. cbn [w_heap bare]. rewrite H. reflexivity. }
  unfold eval. cbn [step]. unfold as_out, m_calc, api_surface, api_volume, api_interaction, catch.
  rewrite !U. auto.
Qed.

Definition evaluation (q : op) : option (nat * dict pyval) :=
  match q with OCalc o kw | OSurface o kw | OVolume o kw | OInteraction o kw => Some (o, kw) | _ => None end.

Lemma dupdate_nil {A} (d : dict A) : dupdate d [] = d. Proof. reflexivity. Qed.
Lemma upd_rec_nil h o r : HB h -> obj h o = Ok r -> upd_rec r [] = r.
Proof.
  intros Hb Hr. unfold upd_rec. rewrite upd_kw_bsf by (eapply Hb; eassumption). simpl. now destruct r.
Qed.
Lemma good_HB w p : good w p -> HB (w_heap w). Proof. intros H. apply (good_eval w p H). Qed.

(** a state in which an evaluation is performed; what the evaluation computes *)
Definition at_conf (w : world) (o : nat) (C : config) (fe : res (option compiled)) : Prop :=
  exists r, obj (w_heap w) o = Ok r /\ C = conf (w_heap w) r /\ fe = fnev_next (w_heap w) r.

Lemma calc_nil w o C fe : good w (OCalc o []) -> at_conf w o C fe ->
  snd (step w (OCalc o [])) = outA (p_calc C fe).
Proof.
  intros G (r & Hr & -> & ->). destruct (good_eval _ _ G) as (Hb & E & _). rewrite E.
  destruct (eval_calc (w_heap w) o r [] Hr) as [X _]. rewrite X. now rewrite (upd_rec_nil _ _ _ Hb Hr).
Qed.
Lemma surface_nil w o C fe : good w (OSurface o []) -> at_conf w o C fe ->
  snd (step w (OSurface o [])) = outA (let* v := p_surface C in p_convert C v).
Proof.
  intros G (r & Hr & -> & ->). destruct (good_eval _ _ G) as (Hb & E & _). rewrite E.
  destruct (eval_surface (w_heap w) o r [] Hr) as [X _]. rewrite X. now rewrite (upd_rec_nil _ _ _ Hb Hr).
Qed.
Lemma volume_nil w o C fe : good w (OVolume o []) -> at_conf w o C fe ->
  snd (step w (OVolume o [])) = outA (let* v := p_volume C in p_convert C v).
Proof.
  intros G (r & Hr & -> & ->). destruct (good_eval _ _ G) as (Hb & E & _). rewrite E.
  destruct (eval_volume (w_heap w) o r [] Hr) as [X _]. rewrite X. now rewrite (upd_rec_nil _ _ _ Hb Hr).
Qed.
Lemma interaction_nil w o C fe : good w (OInteraction o []) -> at_conf w o C fe ->
  snd (step w (OInteraction o [])) = outA (let* v := p_interaction C fe in p_convert C v).
Proof.
  intros G (r & Hr & -> & ->). destruct (good_eval _ _ G) as (Hb & E & _). rewrite E.
  destruct (eval_interaction (w_heap w) o r [] Hr) as [X _]. rewrite X. now rewrite (upd_rec_nil _ _ _ Hb Hr).
Qed.
(** an evaluation that returns an array: the state afterwards has the configuration it used *)
Lemma eval_after w q o kw a : evaluation q = Some (o, kw) -> good w q -> snd (step w q) = RetArr a ->
  exists C fe, at_conf (fst (step w q)) o C fe /\
    match q with
    | OCalc _ _ => p_calc C fe = Ok a
    | OSurface _ _ => (let* v := p_surface C in p_convert C v) = Ok a
    | OVolume _ _ => (let* v := p_volume C in p_convert C v) = Ok a
    | OInteraction _ _ => (let* v := p_interaction C fe in p_convert C v) = Ok a
    | _ => True
    end.
Proof.
  intros Eq G E. destruct (good_eval _ _ G) as (Hb & E1 & E2). rewrite E1 in E.
  destruct (obj (w_heap w) o) as [r|e] eqn:Hr.
  2: { destruct (eval_noobj (w_heap w) o e kw Hr) as (N1 & N2 & N3 & N4).
       destruct q; simpl in Eq; inversion Eq; subst; congruence. }
  assert (X : exists r1, heap_after (w_heap w) q o r1 /\
     match q with
    | OCalc _ _ => outA (p_calc (conf (w_heap w) r1) (fnev_next (w_heap w) r1)) = RetArr a
    | OSurface _ _ => outA (let* v := p_surface (conf (w_heap w) r1) in p_convert (conf (w_heap w) r1) v) = RetArr a
    | OVolume _ _ => outA (let* v := p_volume (conf (w_heap w) r1) in p_convert (conf (w_heap w) r1) v) = RetArr a
    | OInteraction _ _ => outA (let* v := p_interaction (conf (w_heap w) r1) (fnev_next (w_heap w) r1) in p_convert (conf (w_heap w) r1) v) = RetArr a
    | _ => True
    end).
  { destruct q; simpl in Eq; inversion Eq; subst; exists (upd_rec r kw).
    - destruct (eval_calc _ _ _ kw Hr) as [X Y]. split; [exact Y|congruence].
    - destruct (eval_surface _ _ _ kw Hr) as [X Y]. split; [exact Y|congruence].
    - destruct (eval_volume _ _ _ kw Hr) as [X Y]. split; [exact Y|congruence].
    - destruct (eval_interaction _ _ _ kw Hr) as [X Y]. split; [exact Y|congruence]. }
  destruct X as (r1 & HA & HX).
  destruct (obj_after _ _ _ _ _ Hr HA) as (r' & Hr' & _ & Hc & Hf). rewrite <- E2 in Hr', Hc, Hf.
  exists (conf (w_heap w) r1), (fnev_next (w_heap w) r1).
  split; [exists r'; auto|].
  destruct q; auto; match type of HX with outA ?z = _ => destruct z; simpl in HX; congruence end.
Qed.
Lemma adm_nil J h o : adm1 J h (OCalc o []) /\ adm1 J h (OSurface o []) /\ adm1 J h (OVolume o []) /\ adm1 J h (OInteraction o []).
Proof. assert (X : adds_no_name h o []) by (intros r _ x []). repeat split; intros _; exact X. Qed.

Lemma conf_flags w o C fe iq sg db : at_conf w o C fe -> obs_flags w o iq sg db -> c_intQ C = iq /\ c_sig0 C = sg /\ c_dB C = db.
Proof. intros (r & Hr & -> & _) (r' & Hr' & H1 & H2 & H3). assert (r' = r) by congruence. subst r'. auto. Qed.
Lemma flags_conf w o C fe : at_conf w o C fe -> obs_flags w o (c_intQ C) (c_sig0 C) (c_dB C).
Proof. intros (r & Hr & -> & _). exists r. auto. Qed.

(** ** Relations between arrays *)
Definition nrel {A B} (Q : A -> B -> Prop) (a : nd A) (b : nd B) : Prop :=
  shp a = shp b /\ forall i, Q (get a i) (get b i).
Definition rrel {A B} (Q : A -> B -> Prop) (x : res A) (y : res B) : Prop :=
  match x, y with Ok a, Ok b => Q a b | Err e, Err f => e = f | _, _ => False end.

Lemma rrel_bind {A B A' B'} (Q : A -> B -> Prop) (Q' : A' -> B' -> Prop) x y f g :
  rrel Q x y -> (forall a b, x = Ok a -> y = Ok b -> Q a b -> rrel Q' (f a) (g b)) -> rrel Q' (rbind x f) (rbind y g).
Proof. destruct x, y; simpl; try tauto. intros H K. now apply K. Qed.
Lemma rrel_same {A B} (Q : A -> B -> Prop) (x : res A) y : rrel Q x y -> (forall e, x = Err e <-> y = Err e).
Proof. destruct x, y; simpl; try tauto; intros; split; congruence. Qed.
Lemma rrel_eq_bind {A A' B'} (Q' : A' -> B' -> Prop) (x : res A) f g :
  (forall a, x = Ok a -> rrel Q' (f a) (g a)) -> rrel Q' (rbind x f) (rbind x g).
Proof. destruct x; simpl; auto. Qed.
Lemma rrel_mono {A B} (Q Q' : A -> B -> Prop) x y : rrel Q x y -> (forall a b, Q a b -> Q' a b) -> rrel Q' x y.
Proof. destruct x, y; simpl; auto. Qed.
Lemma nrel_refl {A} (Q : A -> A -> Prop) (a : nd A) : (forall x, Q x x) -> nrel Q a a.
Proof. split; auto. Qed.
Lemma nrel_bget {A B} (Q : A -> B -> Prop) a b i : nrel Q a b -> Q (bget a i) (bget b i).
Proof. intros [H1 H2]. unfold bget. rewrite H1. apply H2. Qed.
Lemma map1_rel {A B A' B'} (Q : A -> B -> Prop) (Q' : A' -> B' -> Prop) f g a b :
  nrel Q a b -> (forall x y, Q x y -> Q' (f x) (g y)) -> nrel Q' (map1 f a) (map1 g b).
Proof. intros [H1 H2] H. split; [exact H1|]. intros i. apply H. apply H2. Qed.
Lemma map2_rel {A B C A' B' C'} (Q1 : A -> A' -> Prop) (Q2 : B -> B' -> Prop) (Q3 : C -> C' -> Prop) f g a a' b b' :
  nrel Q1 a a' -> nrel Q2 b b' -> (forall x x' y y', Q1 x x' -> Q2 y y' -> Q3 (f x y) (g x' y')) ->
  rrel (nrel Q3) (map2 f a b) (map2 g a' b').
Proof.
  intros Ha Hb H. unfold map2. rewrite (proj1 Ha), (proj1 Hb). destruct (bc_shape _ _) as [s|]; [|reflexivity].
  simpl. split; [reflexivity|]. intros i. cbn [get]. apply H; now apply nrel_bget.
Qed.
Lemma stack_rel {A B} (Q : A -> B -> Prop) l l' : Forall2 (nrel Q) l l' -> rrel (nrel Q) (stack l) (stack l').
Proof.
  intros H. destruct H as [|a b l l' Hab Hl]; [reflexivity|]. unfold stack.
  assert (E : forallb (fun x => list_nat_eqb (shp x) (shp a)) l = forallb (fun x => list_nat_eqb (shp x) (shp b)) l').
  { rewrite (proj1 Hab). clear -Hl. induction Hl as [|x y l l' Hx _ IH]; simpl; [reflexivity|]. now rewrite (proj1 Hx), IH. }
  rewrite E. destruct (forallb _ l'); [|reflexivity]. simpl. split.
  - cbn [shp]. now rewrite (proj1 Hab), (F2_length _ _ _ Hl).
  - intros i. cbn [get]. rewrite (proj1 Hab).
    assert (HF : forall k, nrel Q (nth k (a :: l) a) (nth k (b :: l') b)).
    { intros k. assert (HH : Forall2 (nrel Q) (a :: l) (b :: l')) by (now constructor). revert k.
      generalize HH. generalize (a :: l), (b :: l'). clear -Hab. intros l l' H. induction H; intros [|k]; simpl; auto. }
    apply HF.
Qed.
