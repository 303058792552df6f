(** Two objects that hold equal values behave alike: a relational walk through the methods of the
    program without caches.  Used for pickling (C11). *)
From Verif Require Export Pickle Api.
Open Scope string_scope.
Open Scope nat_scope.
Open Scope list_scope.

(** [v] in heap [h] and [v'] in heap [h'] are the same number, or arrays with the same content *)
Definition veq (h h' : heap) (v v' : pyval) : Prop :=
  match v, v' with
  | PNum x, PNum y => x = y
  | PArr _, PArr _ => exists a, deref h v = Ok a /\ deref h' v' = Ok a
  | _, _ => False
  end.
Definition sveq (h h' : heap) (v v' : sval) : Prop :=
  match v, v' with SRaw x, SRaw y | S1d x, S1d y => veq h h' x y | _, _ => False end.
Definition oveq (h h' : heap) (v v' : option pyval) : Prop :=
  match v, v' with None, None => True | Some x, Some y => veq h h' x y | _, _ => False end.
Definition deq (h h' : heap) (v v' : pdef) : Prop :=
  match v, v' with DStr x, DStr y | DSym x, DSym y => x = y | DVal x, DVal y => veq h h' x y | _, _ => False end.
Definition peq (h h' : heap) (d d' : dict sval) : Prop :=
  Forall2 (fun x y => fst x = fst y /\ sveq h h' (snd x) (snd y)) d d'.
Definition scateq (h h' : heap) (i i' : nat) : Prop := exists s, scat_at h i = Ok s /\ scat_at h' i' = Ok s.

(** every attribute of [r] has the same value in [r'], except whether the plot functions are callable *)
Record tw (h h' : heap) (r r' : rt1) : Prop := mk_tw {
  tw_V : scateq h h' (r_V r) (r_V r'); tw_SRF : scateq h h' (r_SRF r) (r_SRF r');
  tw_intQ : r_intQ r' = r_intQ r; tw_sig0 : r_sig0 r' = r_sig0 r; tw_dB : r_dB r' = r_dB r;
  tw_fnin : r_fn_input r' = r_fn_input r; tw_fnevin : r_fnevals_input r' = r_fnevals_input r;
  tw_I0 : veq h h' (r_I0 r) (r_I0 r');
  tw_def : forall p, deq h h' (r_def r p) (r_def r' p);
  tw_par : peq h h' (r_params r) (r_params r');
  tw_fixed : r_fixed r' = r_fixed r; tw_mono : r_mono r' = r_mono r;
  tw_ang : forall a, oveq h h' (r_ang r a) (r_ang r' a);
  tw_geom : r_geom r' = r_geom r; tw_fn : r_fn r' = r_fn r; tw_fnev : r_fnev r' = r_fnev r }.

Section Rel.
  Context (h h' : heap) (o o' : nat).
  Hypothesis Hbe : h_be h' = h_be h.
  Hypothesis Hse : h_seng h' = h_seng h.
  Notation Tw := (tw h h').

  Definition T (w w' : world) : Prop := exists l l' k k' r r',
    w = mk_world (set_objs h l) false k /\ w' = mk_world (set_objs h' l') false k' /\
    nth_error l o = Some r /\ nth_error l' o' = Some r' /\ Tw r r'.
  Definition resR {A B} (R : A -> B -> Prop) (x : res A) (y : res B) : Prop :=
    match x, y with Ok a, Ok b => R a b | Err e, Err e' => e' = e | _, _ => False end.
  Definition relM {A B} (R : A -> B -> Prop) (m : M A) (m' : M B) : Prop :=
    forall w w', T w w' -> T (fst (m w)) (fst (m' w')) /\ resR R (snd (m w)) (snd (m' w')).

  Lemma resR_eq {A} (x y : res A) : x = y -> resR eq x y.
  Proof. intros <-. destruct x; reflexivity. Qed.
  Lemma rel_ret {A} (a : A) : relM eq (ret a) (ret a). Proof. intros w w' H. split; [exact H|reflexivity]. Qed.
  Lemma rel_fail {A} e : relM (@eq A) (fail e) (fail e). Proof. intros w w' H. split; [exact H|reflexivity]. Qed.
  Lemma rel_lift {A} (x : res A) : relM eq (lift x) (lift x). Proof. intros w w' H. split; [exact H|now apply resR_eq]. Qed.
  Lemma rel_bind {A B A' B'} (R : A -> A' -> Prop) (S : B -> B' -> Prop) m m' k k' :
    relM R m m' -> (forall a a', R a a' -> relM S (k a) (k' a')) -> relM S (bind m k) (bind m' k').
  Proof.
    intros Hm Hk w w' H. unfold bind. specialize (Hm w w' H). destruct (m w) as [w1 [a|e]], (m' w') as [w1' [a'|e']]; cbn [fst snd resR] in Hm; destruct Hm as [H1 HR]; try contradiction.
    - now apply Hk.
    - subst. split; [exact H1|reflexivity].
  Qed.
  Lemma rel_bind_eq {A B} (m m' : M A) (k k' : A -> M B) :
    relM eq m m' -> (forall a, relM eq (k a) (k' a)) -> relM eq (bind m k) (bind m' k').
  Proof. intros Hm Hk. eapply rel_bind; [exact Hm|]. intros a a' <-. apply Hk. Qed.
  Lemma rel_catch {A} (m m' : M A) (k k' : exn -> M A) :
    relM eq m m' -> (forall e, relM eq (k e) (k' e)) -> relM eq (catch m k) (catch m' k').
  Proof.
    intros Hm Hk w w' H. unfold catch. specialize (Hm w w' H). destruct (m w) as [w1 [a|e]], (m' w') as [w1' [a'|e']]; cbn [fst snd resR] in Hm; destruct Hm as [H1 HR]; try contradiction.
    - subst. split; [exact H1|reflexivity].
    - subst. now apply Hk.
  Qed.
  Lemma rel_cached n k k' (m m' : M cval) : relM eq m m' -> relM eq (cached n k m) (cached n k' m').
  Proof.
    intros Hm w w' H. pose proof H as (l & l' & c & c' & r & r' & -> & -> & _). unfold cached. cbn [w_on]. apply Hm. exact H.
  Qed.
  Lemma rel_clear n : relM eq (cache_clear n) (cache_clear n).
  Proof.
    intros w w' (l & l' & c & c' & r & r' & -> & -> & R). split; [|reflexivity]. unfold cache_clear, set_cache. cbn [fst w_heap w_on w_caches].
    exists l, l'. eexists _, _, r, r'. split; [reflexivity|]. split; [reflexivity|exact R].
  Qed.
  Lemma rel_gets {A} (f f' : heap -> res A) :
    (forall l l' r r', nth_error l o = Some r -> nth_error l' o' = Some r' -> Tw r r' -> f (set_objs h l) = f' (set_objs h' l')) ->
    relM eq (gets f) (gets f').
  Proof.
    intros Hf w w' (l & l' & c & c' & r & r' & -> & -> & R1 & R2 & R3). split; [exists l, l', c, c', r, r'; auto|].
    cbn [gets snd w_heap]. apply resR_eq. eapply Hf; eassumption.
  Qed.
  Lemma rel_obj : relM Tw (get_obj o) (get_obj o').
  Proof.
    intros w w' (l & l' & c & c' & r & r' & -> & -> & R1 & R2 & R3). split; [exists l, l', c, c', r, r'; auto|].
    unfold get_obj, gets, obj. cbn [snd w_heap set_objs h_objs]. rewrite R1, R2. exact R3.
  Qed.
  Lemma rel_put r r' : Tw r r' -> relM eq (put_obj o r) (put_obj o' r').
  Proof.
    intros Hr w w' (l & l' & c & c' & r0 & r0' & -> & -> & R1 & R2 & R3). split; [|reflexivity].
    unfold put_obj. cbn [fst w_heap set_heap set_objs h_objs]. exists (list_set l o r), (list_set l' o' r'), c, c', r, r'.
    split; [reflexivity|]. split; [reflexivity|]. split; [eapply nth_error_list_set_same; eassumption|]. split; [eapply nth_error_list_set_same; eassumption|exact Hr].
  Qed.
  Lemma rel_bind_obj {B} (k k' : rt1 -> M B) : (forall r r', Tw r r' -> relM eq (k r) (k' r')) ->
    relM eq (bind (get_obj o) k) (bind (get_obj o') k').
  Proof. intros Hk. eapply rel_bind; [apply rel_obj|exact Hk]. Qed.

  (** ** values *)
  Lemma veq_deref v v' : veq h h' v v' -> deref h' v' = deref h v.
  Proof. destruct v, v'; simpl; try tauto; [now intros ->|]. intros (a & -> & ->). reflexivity. Qed.
  Lemma sveq_deref v v' : sveq h h' v v' -> sderef h' v' = sderef h v.
  Proof. destruct v, v'; simpl; try tauto; intros E; now rewrite (veq_deref _ _ E). Qed.
  Lemma peq_keys d d' : peq h h' d d' -> dkeys d' = dkeys d.
  Proof. unfold dkeys. induction 1 as [|x y d d' [E _] _ IH]; [reflexivity|]. cbn [map]. now rewrite IH, E. Qed.
  Lemma peq_get d d' k : peq h h' d d' ->
    match dget d k, dget d' k with Some v, Some v' => sveq h h' v v' | None, None => True | _, _ => False end.
  Proof.
    induction 1 as [|[k1 x] [k2 y] d d' [E V] _ IH]; [exact I|]. cbn [fst snd dget] in *. subst k2. destruct (String.eqb k k1); [exact V|exact IH].
  Qed.
  Lemma peq_nd r r' : Tw r r' -> params_nd h' r' = params_nd h r.
  Proof.
    intros R. pose proof (tw_par _ _ _ _ R) as P. unfold params_nd. induction P as [|x y d d' [E V] _ IH]; [reflexivity|]. cbn [rmap].
    rewrite E, (sveq_deref _ _ V), IH. reflexivity.
  Qed.
  Lemma peq_set d d' k v v' : peq h h' d d' -> sveq h h' v v' -> peq h h' (dset d k v) (dset d' k v').
  Proof.
    intros P V. induction P as [|[k1 x] [k2 y] d d' [E V'] P IH]; cbn [dset].
    - constructor; [split; [reflexivity|exact V]|constructor].
    - cbn [fst] in E. subst k2. destruct (String.eqb k k1); constructor; auto.
  Qed.
  Lemma peq_update kw : forall d d' kw', peq h h' d d' -> peq h h' kw kw' -> peq h h' (dupdate d kw) (dupdate d' kw').
  Proof.
    unfold dupdate. intros d d' kw' P Q. revert d d' P. induction Q as [|[k1 x] [k2 y] kw kw' [E V] _ IH]; intros d d' P; [exact P|].
    cbn [fold_left fst snd] in *. subst k2. apply IH. now apply peq_set.
  Qed.
  Lemma stored_eq r r' a : Tw r r' -> stored_ang h' r' a = stored_ang h r a.
  Proof.
    intros R. unfold stored_ang. pose proof (tw_ang _ _ _ _ R a) as A. destruct (r_ang r a), (r_ang r' a); simpl in A; try tauto.
    now rewrite (veq_deref _ _ A).
  Qed.
  Lemma read_eq r r' a : Tw r r' -> read_ang h' r' a = read_ang h r a.
  Proof. intros R. unfold read_ang. rewrite (tw_mono _ _ _ _ R), !(stored_eq _ _ _ R). reflexivity. Qed.
  Lemma scat_eq i i' : scateq h h' i i' -> scat_at h' i' = scat_at h i.
  Proof. intros (s & -> & ->). reflexivity. Qed.
  Lemma objs_eq l l' r r' : nth_error l o = Some r -> nth_error l' o' = Some r' -> obj (set_objs h l) o = Ok r /\ obj (set_objs h' l') o' = Ok r'.
  Proof. intros A B. unfold obj. cbn [set_objs h_objs]. now rewrite A, B. Qed.

  (** ** methods *)
  Ltac go := repeat first
    [ match goal with |- forall _, _ => intro end
    | apply rel_ret | apply rel_fail | apply rel_lift | apply rel_clear
    | solve [auto with rel]
    | match goal with
      | |- relM _ (bind (get_obj _) _) _ => apply rel_bind_obj
      | |- relM _ (bind _ _) _ => apply rel_bind_eq
      | |- relM _ (catch _ _) _ => apply rel_catch
      | |- relM _ (cached _ _ _) _ => apply rel_cached
      end
    | match goal with |- relM _ (match ?x with _ => _ end) (match ?x with _ => _ end) => destruct x end ].
  Create HintDb rel.

  Lemma rel_ang a : relM eq (m_ang o a) (m_ang o' a).
  Proof. apply rel_gets. intros l l' r r' A B R. destruct (objs_eq _ _ _ _ A B) as [-> ->]. cbn [rbind]. symmetry. exact (read_eq _ _ a R). Qed.
  Lemma rel_nmax : relM eq (m_nmax o) (m_nmax o').
  Proof.
    apply rel_gets. intros l l' r r' A B R. destruct (objs_eq _ _ _ _ A B) as [-> ->]. cbn [rbind].
    pose proof (scat_eq _ _ (tw_V _ _ _ _ R)) as E1. pose proof (scat_eq _ _ (tw_SRF _ _ _ _ R)) as E2.
    unfold scat_at in *. cbn [set_objs h_scats]. now rewrite E1, E2.
  Qed.
  Lemma rel_I0 : relM eq (get_I0 o) (get_I0 o').
  Proof. apply rel_gets. intros l l' r r' A B R. destruct (objs_eq _ _ _ _ A B) as [-> ->]. cbn [rbind]. symmetry. exact (veq_deref _ _ (tw_I0 _ _ _ _ R)). Qed.
  Lemma rel_params r r' : Tw r r' -> relM eq (gets (fun h => params_nd h r)) (gets (fun h => params_nd h r')).
  Proof. intros R. apply rel_gets. intros. symmetry. exact (peq_nd _ _ R). Qed.
  Lemma rel_lamb vars es : relM eq (gets (fun h => lambdify (h_be h) (h_seng h) vars es)) (gets (fun h => lambdify (h_be h) (h_seng h) vars es)).
  Proof. apply rel_gets. intros. cbn [set_objs h_be h_seng]. now rewrite Hbe, Hse. Qed.
  Lemma rel_scat i i' : scateq h h' i i' -> relM eq (gets (fun h => scat_at h i)) (gets (fun h => scat_at h i')).
  Proof. intros S. apply rel_gets. intros. symmetry. exact (scat_eq _ _ S). Qed.
  Hint Resolve rel_ang rel_nmax rel_I0 rel_params rel_lamb : rel.
  Lemma rel_mu0 : relM eq (mu_0 o) (mu_0 o'). Proof. unfold mu_0. go. Qed.
  Lemma rel_muex : relM eq (mu_ex o) (mu_ex o'). Proof. unfold mu_ex. go. Qed.
  Hint Resolve rel_mu0 rel_muex : rel.
  Lemma rel_mu0x : relM eq (mu_0_x o) (mu_0_x o'). Proof. unfold mu_0_x. go. Qed.
  Lemma rel_muexx : relM eq (mu_ex_x o) (mu_ex_x o'). Proof. unfold mu_ex_x. go. Qed.
  Hint Resolve rel_mu0x rel_muexx : rel.
  Lemma rel_symbs p : relM eq (get_param_symbs o p) (get_param_symbs o' p).
  Proof.
    unfold get_param_symbs. go. pose proof (tw_def _ _ _ _ H p) as D.
    destruct (r_def r p), (r_def r' p); simpl in D; try tauto; subst; apply rel_ret.
  Qed.
  Hint Resolve rel_symbs : rel.
  Lemma rel_funcs p : relM eq (get_param_funcs o p) (get_param_funcs o' p).
  Proof.
    unfold get_param_funcs. go. pose proof (tw_def _ _ _ _ H p) as D.
    destruct (r_def r p), (r_def r' p); simpl in D; try tauto; subst; go.
  Qed.
  Hint Resolve rel_funcs : rel.
  Lemma rel_eval p : relM eq (eval_param o p) (eval_param o' p).
  Proof.
    unfold eval_param. apply rel_bind_eq; [go|]. intros [c|].
    - apply rel_bind_eq; [go|]. intros ss. apply rel_bind_obj. intros r r' R. apply rel_bind_eq.
      + apply rel_gets. intros. f_equal.
        enough (E : rmap (fun k => match dget (r_params r) k with Some v => let* a := sderef (set_objs h l) v in Ok (k, a) | None => Err KeyError end) ss
          = rmap (fun k => match dget (r_params r') k with Some v => let* a := sderef (set_objs h' l') v in Ok (k, a) | None => Err KeyError end) ss) by now rewrite E.
        induction ss as [|k ss IH]; [reflexivity|]. cbn [rmap]. rewrite IH. pose proof (peq_get _ _ k (tw_par _ _ _ _ R)) as G.
        destruct (dget (r_params r) k), (dget (r_params r') k); try tauto. change (sderef (set_objs h l) s) with (sderef h s). change (sderef (set_objs h' l') s0) with (sderef h' s0).
        now rewrite (sveq_deref _ _ G).
      + intros x. rewrite (peq_keys _ _ (tw_par _ _ _ _ R)). go.
    - apply rel_bind_obj. intros r r' R. pose proof (tw_def _ _ _ _ R p) as D.
      destruct (r_def r p), (r_def r' p); simpl in D; try tauto; subst; go.
      + apply rel_gets. intros. symmetry. exact (veq_deref _ _ D).
      + destruct v, v0; simpl in D; try tauto; go.
  Qed.
  Hint Resolve rel_eval : rel.
  Lemma rel_val p : relM eq (param_val o p) (param_val o' p). Proof. unfold param_val. go. Qed.
  Hint Resolve rel_val : rel.
  Lemma rel_lambda i i' keys : scateq h h' i i' -> relM eq (lambda_func i keys) (lambda_func i' keys).
  Proof.
    intros S. unfold lambda_func. go. apply rel_gets. intros. pose proof (scat_eq _ _ S) as E. unfold scat_at in *. cbn [set_objs h_be h_seng h_scats].
    now rewrite Hbe, Hse, E.
  Qed.
  Lemma rel_scat_calc i i' a b c d kw : scateq h h' i i' -> relM eq (scat_calc i a b c d kw) (scat_calc i' a b c d kw).
  Proof. intros S. unfold scat_calc. apply rel_bind_eq; [now apply rel_lambda|go]. Qed.
  Lemma rel_obj_scat x : relM eq (obj_scat_calc o x) (obj_scat_calc o' x).
  Proof. unfold obj_scat_calc. go. apply rel_scat_calc. destruct x; [apply (tw_V _ _ _ _ H)|apply (tw_SRF _ _ _ _ H)]. Qed.
  Hint Resolve rel_obj_scat : rel.
  Lemma rel_surface : relM eq (m_surface o) (m_surface o'). Proof. unfold m_surface. go. Qed.
  Lemma rel_volume : relM eq (m_volume o) (m_volume o'). Proof. unfold m_volume. go. Qed.
  Hint Resolve rel_surface rel_volume : rel.
  Lemma tw_with_fn r r' f : Tw r r' -> Tw (with_fn r f) (with_fn r' f).
  Proof. intros []; constructor; auto. Qed.
  Lemma tw_with_fnev r r' f : Tw r r' -> Tw (with_fnev r f) (with_fnev r' f).
  Proof. intros []; constructor; auto. Qed.
  Lemma rel_fn : relM eq (m_fn o) (m_fn o').
  Proof.
    unfold m_fn. apply rel_bind_obj. intros r r' R. rewrite (tw_fn _ _ _ _ R), (tw_fnin _ _ _ _ R), (tw_intQ _ _ _ _ R), (tw_geom _ _ _ _ R).
    destruct (r_fn r); [go|]. destruct (r_fn_input r); [go|]. destruct (r_intQ r); [|go]. apply rel_bind_eq.
    - apply rel_gets. intros. pose proof (scat_eq _ _ (tw_V _ _ _ _ R)) as E1. pose proof (scat_eq _ _ (tw_SRF _ _ _ _ R)) as E2.
      unfold scat_at in *. cbn [set_objs h_be h_seng h_scats]. now rewrite Hbe, Hse, E1, E2.
    - intros f. apply rel_bind_eq; [apply rel_put; now apply tw_with_fn|]. go.
  Qed.
  Hint Resolve rel_fn : rel.
  Lemma rel_fnevals : relM eq (m_fnevals o) (m_fnevals o').
  Proof.
    unfold m_fnevals. apply rel_bind_obj. intros r r' R. rewrite (tw_fnev _ _ _ _ R), (tw_fnevin _ _ _ _ R), (tw_intQ _ _ _ _ R), (peq_keys _ _ (tw_par _ _ _ _ R)).
    destruct (r_fnev r); [go|]. destruct (r_fnevals_input r); [go|]. destruct (r_intQ r); [|go]. apply rel_bind_eq; [go|]. intros [es|]; [|go].
    apply rel_bind_eq; [go|]. intros c. apply rel_bind_obj. intros r1 r1' R1. apply rel_bind_eq; [apply rel_put; now apply tw_with_fnev|]. go.
  Qed.
  Hint Resolve rel_fnevals : rel.
  Lemma rel_Fint b : relM eq (m_Fint o b) (m_Fint o' b).
  Proof. unfold m_Fint. destruct b; go. Qed.
  Hint Resolve rel_Fint : rel.
  Lemma rel_interaction : relM eq (m_interaction o) (m_interaction o'). Proof. unfold m_interaction. go. Qed.
  Hint Resolve rel_interaction : rel.
  Lemma rel_convert v : relM eq (m_convert o v) (m_convert o' v).
  Proof. unfold m_convert. apply rel_bind_obj. intros r r' R. rewrite (tw_sig0 _ _ _ _ R), (tw_dB _ _ _ _ R). go. Qed.
  Hint Resolve rel_convert : rel.
  Lemma rel_all : relM eq (all_param_symbs o) (all_param_symbs o'). Proof. unfold all_param_symbs. go. Qed.
  Hint Resolve rel_all : rel.
  Lemma rel_body : relM eq (m_calc_body o) (m_calc_body o').
  Proof.
    unfold m_calc_body. apply rel_bind_eq; [go|]. intros tv. apply rel_bind_obj. intros r r' R. rewrite (tw_intQ _ _ _ _ R). destruct tv as [tau b]. go.
  Qed.
  Hint Resolve rel_body : rel.
  (** keyword arguments: the same values in both heaps *)
  Definition kweq (kw : dict pyval) : Prop := forall k v, In (k, v) kw -> veq h h' v v.
  Lemma kw_peq kw : kweq kw -> peq h h' (map (fun kv => (fst kv, S1d (snd kv))) kw) (map (fun kv => (fst kv, S1d (snd kv))) kw).
  Proof.
    intros K. induction kw as [|[k v] kw IH]; cbn [map]; constructor.
    - split; [reflexivity|]. cbn. apply (K k). now left.
    - apply IH. intros k0 v0 I. apply (K k0). now right.
  Qed.
  Lemma tw_with_params r r' d d' : Tw r r' -> peq h h' d d' -> Tw (with_params r d) (with_params r' d').
  Proof. intros []; constructor; auto. Qed.
  Lemma rel_update kw : kweq kw -> relM eq (update_params o kw) (update_params o' kw).
  Proof.
    intros K. unfold update_params. apply rel_bind_obj. intros r r' R. rewrite (peq_keys _ _ (tw_par _ _ _ _ R)).
    pose proof (tw_def _ _ _ _ R Bsf) as D.
    assert (G : forall kw1, kweq kw1 -> relM eq (put_obj o (with_params r (dupdate (r_params r) (map (fun kv => (fst kv, S1d (snd kv))) kw1))))
      (put_obj o' (with_params r' (dupdate (r_params r') (map (fun kv => (fst kv, S1d (snd kv))) kw1))))).
    { intros kw1 K1. apply rel_put. apply tw_with_params; [assumption|]. apply peq_update; [apply (tw_par _ _ _ _ R)|now apply kw_peq]. }
    assert (K0 : kweq (kw ++ [("bsf", PNum (Fin 0%R))])) by (intros k v I; apply in_app_iff in I; destruct I as [I|[I|[]]]; [now apply (K k)|injection I as <- <-; reflexivity]).
    destruct (r_def r Bsf) as [e|e|v], (r_def r' Bsf) as [e'|e'|v']; simpl in D; try tauto; subst; try (now apply G).
    destruct e'; try (now apply G). destruct (_ && _ && _); now apply G.
  Qed.
  Lemma rel_calc kw : kweq kw -> relM eq (m_calc o kw) (m_calc o' kw).
  Proof.
    intros K. unfold m_calc. apply rel_catch; [apply rel_bind_eq; [now apply rel_update|go]|]. intros e. destruct e; try apply rel_fail.
    all: apply rel_bind_eq; [go|]; intros ss; apply rel_bind_obj; intros r r' R; apply rel_bind_eq; [|intros []; go].
    all: apply rel_gets; intros; pose proof (scat_eq _ _ (tw_V _ _ _ _ R)) as E1; pose proof (scat_eq _ _ (tw_SRF _ _ _ _ R)) as E2;
      unfold scat_at in *; cbn [set_objs h_scats]; rewrite E1, E2, (peq_keys _ _ (tw_par _ _ _ _ R)); reflexivity.
  Qed.
  Lemma rel_api_s kw : kweq kw -> relM eq (api_surface o kw) (api_surface o' kw).
  Proof. intros K. unfold api_surface. apply rel_bind_eq; [now apply rel_update|]. go. Qed.
  Lemma rel_api_v kw : kweq kw -> relM eq (api_volume o kw) (api_volume o' kw).
  Proof. intros K. unfold api_volume. apply rel_bind_eq; [now apply rel_update|]. go. Qed.
  Lemma rel_api_i kw : kweq kw -> relM eq (api_interaction o kw) (api_interaction o' kw).
  Proof. intros K. unfold api_interaction. apply rel_bind_eq; [now apply rel_update|]. go. Qed.

  Lemma rel_ldiff d : relM eq (lambdify_diff o d) (lambdify_diff o' d).
  Proof. unfold lambdify_diff. destruct d; [|go]. apply rel_bind_obj. intros r r' R. rewrite (peq_keys _ _ (tw_par _ _ _ _ R)). go. Qed.
  Hint Resolve rel_ldiff : rel.
  Lemma rel_dlam x key : relM eq (d_dummy_lambda o x key) (d_dummy_lambda o' x key).
  Proof. unfold d_dummy_lambda. go. apply rel_scat. destruct x; [apply (tw_V _ _ _ _ H)|apply (tw_SRF _ _ _ _ H)]. Qed.
  Lemma rel_full c : relM eq (call_full o c) (call_full o' c). Proof. unfold call_full. go. Qed.
  Lemma rel_dparam p k : relM eq (dparam_ddummy_lambda o p k) (dparam_ddummy_lambda o' p k).
  Proof.
    unfold dparam_ddummy_lambda. go. pose proof (tw_def _ _ _ _ H p) as D.
    destruct (r_def r p), (r_def r' p); simpl in D; try tauto; subst; go.
  Qed.
  Hint Resolve rel_dlam rel_full rel_dparam : rel.
  Lemma rel_j1 : relM eq (dvolume_dtau o) (dvolume_dtau o'). Proof. unfold dvolume_dtau. go. Qed.
  Lemma rel_j2 : relM eq (dvolume_domega o) (dvolume_domega o'). Proof. unfold dvolume_domega. go. Qed.
  Lemma rel_j3 : relM eq (dvolume_dbsf o) (dvolume_dbsf o'). Proof. unfold dvolume_dbsf. go. Qed.
  Lemma rel_j4 : relM eq (dvolume_dNormBRDF o) (dvolume_dNormBRDF o'). Proof. unfold dvolume_dNormBRDF. go. Qed.
  Lemma rel_j5 : relM eq (dsurface_dtau o) (dsurface_dtau o'). Proof. unfold dsurface_dtau. go. Qed.
  Lemma rel_j6 : relM eq (dsurface_domega o) (dsurface_domega o'). Proof. unfold dsurface_domega. go. Qed.
  Lemma rel_j7 : relM eq (dsurface_dbsf o) (dsurface_dbsf o'). Proof. unfold dsurface_dbsf. go. Qed.
  Lemma rel_j8 : relM eq (dsurface_dNormBRDF o) (dsurface_dNormBRDF o'). Proof. unfold dsurface_dNormBRDF. go. Qed.
  Hint Resolve rel_j1 rel_j2 rel_j3 rel_j4 rel_j5 rel_j6 rel_j7 rel_j8 : rel.
  Lemma rel_dvol k : relM eq (d_volume_ddummy o k) (d_volume_ddummy o' k). Proof. unfold d_volume_ddummy. go. Qed.
  Lemma rel_dsrf k : relM eq (d_surface_ddummy o k) (d_surface_ddummy o' k). Proof. unfold d_surface_ddummy. go. Qed.
  Hint Resolve rel_dvol rel_dsrf : rel.
  Lemma rel_norm : relM eq (jac_norm o) (jac_norm o').
  Proof. unfold jac_norm. apply rel_bind_obj. intros r r' R. rewrite (tw_sig0 _ _ _ _ R), (tw_dB _ _ _ _ R). go. Qed.
  Lemma rel_entry n k : relM eq (jac_entry o n k) (jac_entry o' n k).
  Proof. unfold jac_entry. apply rel_bind_obj. intros r r' R. rewrite (peq_keys _ _ (tw_par _ _ _ _ R)). go. Qed.
  Hint Resolve rel_norm rel_entry : rel.
  Lemma rel_entries n ks : relM eq (jac_entries o n ks) (jac_entries o' n ks).
  Proof. induction ks as [|k ks IH]; cbn [jac_entries]; go. Qed.
  Hint Resolve rel_entries : rel.
  Lemma rows_eq r r' l l' kj : Tw r r' -> all_rows (set_objs h l) r kj = all_rows (set_objs h' l') r' kj.
  Proof.
    intros R. induction kj as [|[k j] kj IH]; [reflexivity|]. cbn [all_rows]. rewrite IH. unfold key_rows.
    pose proof (peq_get _ _ k (tw_par _ _ _ _ R)) as G. destruct (dget (r_params r) k), (dget (r_params r') k); try tauto.
    change (sderef (set_objs h l) s) with (sderef h s). change (sderef (set_objs h' l') s0) with (sderef h' s0). now rewrite (sveq_deref _ _ G).
  Qed.
  Lemma rel_jacobian ks f : relM eq (api_jacobian o ks f) (api_jacobian o' ks f).
  Proof. unfold api_jacobian. go. apply rel_gets. intros. rewrite (rows_eq _ _ l l' _ H). reflexivity. Qed.

  (** ** setters *)
  Lemma tw_with_ang r r' a v v' : Tw r r' -> veq h h' v v' -> Tw (with_ang r a v) (with_ang r' a v').
  Proof. intros [] V; constructor; auto. intros b. cbn. destruct (angle_eqb a b); auto. Qed.
  Lemma tw_with_fixed r r' f : Tw r r' -> Tw (with_fixed r f) (with_fixed r' f).
  Proof. intros []; constructor; auto. Qed.
  Lemma tw_with_mode r r' f : Tw r r' -> Tw (with_mode r f) (with_mode r' f).
  Proof. intros []; constructor; auto. Qed.
  Lemma tw_with_geom r r' f : Tw r r' -> Tw (with_geom r f) (with_geom r' f).
  Proof. intros []; constructor; auto. Qed.
  Lemma tw_with_flags r r' a b c : Tw r r' -> Tw (with_flags r a b c) (with_flags r' a b c).
  Proof. intros []; constructor; auto. Qed.
  Lemma tw_with_I0 r r' v v' : Tw r r' -> veq h h' v v' -> Tw (with_I0 r v) (with_I0 r' v').
  Proof. intros []; constructor; auto. Qed.
  Lemma tw_with_V r r' s : Tw r r' -> scateq h h' s s -> Tw (with_V r s) (with_V r' s).
  Proof. intros []; constructor; auto. Qed.
  Lemma tw_with_SRF r r' s : Tw r r' -> scateq h h' s s -> Tw (with_SRF r s) (with_SRF r' s).
  Proof. intros []; constructor; auto. Qed.
  Lemma tw_with_def r r' p d : Tw r r' -> deq h h' d d -> Tw (with_def r p d) (with_def r' p d).
  Proof. intros [] V; constructor; auto. intros q. cbn. destruct p, q; auto. Qed.
  Hint Resolve tw_with_ang tw_with_fixed tw_with_mode tw_with_geom tw_with_flags tw_with_I0 tw_with_V tw_with_SRF tw_with_def
    tw_with_fn tw_with_fnev : rel.
  Lemma veq_num x : veq h h' (PNum x) (PNum x). Proof. reflexivity. Qed.
  Hint Resolve veq_num : rel.
  Lemma rel_clear_geom : relM eq clear_geom_cache clear_geom_cache. Proof. unfold clear_geom_cache. go. Qed.
  Lemma rel_clear_param : relM eq clear_param_cache clear_param_cache. Proof. unfold clear_param_cache. go. Qed.
  Hint Resolve rel_clear_geom rel_clear_param rel_put : rel.
  Lemma rel_mono p : relM eq (set_monostatic o p) (set_monostatic o' p).
  Proof.
    unfold set_monostatic. go. all: apply rel_put; auto 8 with rel.
  Qed.
  Lemma rel_bi_step a v : relM eq (bistatic_step o a v) (bistatic_step o' a v).
  Proof.
    unfold bistatic_step. destruct v as [[q|]|]; [|go|go]. apply rel_bind_obj. intros r r' R. apply rel_bind_eq; [|go]. apply rel_put.
    change (r_fixed (with_ang r' a (PNum (Fin (Q2R q))))) with (r_fixed r'). rewrite (tw_fixed _ _ _ _ R). auto 8 with rel.
  Qed.
  Hint Resolve rel_bi_step : rel.
  Lemma rel_bi a b c d : relM eq (set_bistatic o a b c d) (set_bistatic o' a b c d).
  Proof. unfold set_bistatic. go. all: apply rel_put; auto 8 with rel. Qed.
  Definition geq (kw : dict (option pyval)) : Prop := forall k v, In (k, Some v) kw -> veq h h' v v.
  Lemma rel_loop akw : (forall a v, In (a, Some v) akw -> veq h h' v v) -> relM eq (set_geometry_loop o akw) (set_geometry_loop o' akw).
  Proof.
    induction akw as [|[a [v|]] akw IH]; intros K; cbn [set_geometry_loop]; [go| |].
    - apply rel_bind_obj. intros r r' R. rewrite (tw_fixed _ _ _ _ R). destruct (existsb _ _); [go|]. apply rel_bind_eq.
      + apply rel_put. apply tw_with_ang; [assumption|]. apply (K a). now left.
      + intros _. apply IH. intros b x I. apply (K b). now right.
    - apply rel_bind_obj. intros r r' R. rewrite (tw_fixed _ _ _ _ R). go.
  Qed.
  Lemma rel_geo kw : geq kw -> relM eq (set_geometry o kw) (set_geometry o' kw).
  Proof.
    intros K. unfold set_geometry. fold (ang_kw kw). destruct (ang_kw kw) as [akw|e] eqn:E; [|go]. apply rel_bind_obj. intros r r' R. rewrite (tw_mono _ _ _ _ R).
    destruct (_ && _); [go|]. apply rel_bind_eq; [go|]. intros _. apply rel_loop. intros a v I.
    destruct (proj2 (ang_kw_in kw akw E) a (Some v) I) as (k & _ & Ik). exact (K k v Ik).
  Qed.

  (** ** operations *)
  (** [p] is a call on object [o] (or on no object) with arguments that mean the same in both heaps;
      [p'] is the same call on object [o'] *)
  Inductive same_op : op -> op -> Prop :=
  | so_geo kw : geq kw -> same_op (OSetGeometry o kw) (OSetGeometry o' kw)
  | so_mono p : same_op (OSetMono o p) (OSetMono o' p)
  | so_bi a b c d : same_op (OSetBi o a b c d) (OSetBi o' a b c d)
  | so_upd kw : kweq kw -> same_op (OUpdate o kw) (OUpdate o' kw)
  | so_def p d : deq h h' d d -> same_op (OSetDef o p d) (OSetDef o' p d)
  | so_flags a b c : same_op (OSetFlags o a b c) (OSetFlags o' a b c)
  | so_I0 v : veq h h' v v -> same_op (OSetI0 o v) (OSetI0 o' v)
  | so_V s : scateq h h' s s -> same_op (OSetV o s) (OSetV o' s)
  | so_SRF s : scateq h h' s s -> same_op (OSetSRF o s) (OSetSRF o' s)
  | so_ang a : same_op (OReadAngle o a) (OReadAngle o' a)
  | so_par p : same_op (OReadParam o p) (OReadParam o' p)
  | so_calc kw : kweq kw -> same_op (OCalc o kw) (OCalc o' kw)
  | so_srf kw : kweq kw -> same_op (OSurface o kw) (OSurface o' kw)
  | so_vol kw : kweq kw -> same_op (OVolume o kw) (OVolume o' kw)
  | so_int kw : kweq kw -> same_op (OInteraction o kw) (OInteraction o' kw)
  | so_jac ks f : same_op (OJacobian o ks f) (OJacobian o' ks f)
  | so_dict : same_op (OParamDict o) (OParamDict o')
  | so_scat s a b c d kw : scateq h h' s s -> same_op (OScatCalc s a b c d kw) (OScatCalc s a b c d kw)
  | so_be : same_op OGetBackend OGetBackend
  | so_symbs : same_op (OSymbs o) (OSymbs o')
  | so_clear : same_op (OClear o) (OClear o').

  Lemma rel_as_out {A} (f : A -> out) (m m' : M A) w w' : relM eq m m' -> T w w' ->
    snd (as_out f m w) = snd (as_out f m' w') /\ T (fst (as_out f m w)) (fst (as_out f m' w')).
  Proof.
    intros Hm HT. specialize (Hm w w' HT). unfold as_out. destruct (m w) as [w1 [a|e]], (m' w') as [w1' [a'|e']]; cbn [fst snd resR] in Hm; destruct Hm as [H1 HR]; try contradiction; subst; auto.
  Qed.
  Lemma rel_upd (f f' : rt1 -> rt1) : (forall r r', Tw r r' -> Tw (f r) (f' r')) ->
    relM eq (do r <- get_obj o ;; put_obj o (f r)) (do r <- get_obj o' ;; put_obj o' (f' r)).
  Proof. intros Hf. apply rel_bind_obj. intros r r' R. apply rel_put. auto. Qed.
  Lemma rel_step p p' w w' : same_op p p' -> T w w' -> snd (step w p) = snd (step w' p') /\ T (fst (step w p)) (fst (step w' p')).
  Proof.
    intros Hp HT. destruct Hp; cbn [step]; (apply rel_as_out; [|exact HT]).
    - now apply rel_geo.
    - apply rel_mono.
    - apply rel_bi.
    - now apply rel_update.
    - unfold set_def. apply rel_bind_eq; [go|]. intros _. apply (rel_upd (fun r => with_def r p d) (fun r => with_def r p d)). auto with rel.
    - apply (rel_upd (fun r => with_flags r a b c) (fun r => with_flags r a b c)). auto with rel.
    - apply (rel_upd (fun r => with_I0 r v) (fun r => with_I0 r v)). auto with rel.
    - apply (rel_upd (fun r => with_V r s) (fun r => with_V r s)). auto with rel.
    - apply (rel_upd (fun r => with_SRF r s) (fun r => with_SRF r s)). auto with rel.
    - apply rel_ang.
    - apply rel_val.
    - now apply rel_calc.
    - now apply rel_api_s.
    - now apply rel_api_v.
    - now apply rel_api_i.
    - apply rel_jacobian.
    - apply rel_gets. intros l l' r r' A B R. destruct (objs_eq _ _ _ _ A B) as [-> ->]. cbn [rbind]. symmetry. exact (peq_nd _ _ R).
    - now apply rel_scat_calc.
    - apply rel_gets. intros. cbn [set_objs h_be]. now rewrite Hbe.
    - apply rel_all.
    - apply rel_bind_obj. intros r r' R. go.
  Qed.
  Theorem rel_run ps ps' : Forall2 same_op ps ps' -> forall w w', T w w' -> snd (run w ps) = snd (run w' ps') /\ T (fst (run w ps)) (fst (run w' ps')).
  Proof.
    induction 1 as [|p p' ps ps' Hp _ IH]; intros w w' HT; [split; [reflexivity|exact HT]|].
    destruct (rel_step p p' w w' Hp HT) as [E HT1]. destruct (IH _ _ HT1) as [E2 HT2]. rewrite !run_cons. cbn [fst snd]. now rewrite E, E2.
  Qed.
End Rel.
