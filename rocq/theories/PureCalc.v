(** Evaluation as a function of the configuration: without caches every evaluating method of an RT1
    object is a function of what the user has configured ([config]) and of the compiled
    fn-functions the object holds, and changes nothing but the memoised fn-expressions. *)
From Verif Require Export StateProps2.
Open Scope nat_scope.

(** ** Configuration: everything the user has set, by value *)
Inductive cdef : Type := CStr (e : expr) | CSym (e : expr) | CVal (v : res (nd xr)) (is_num : bool).

Record config : Type := mk_conf {
  c_backend : backend; c_seng : bool;
  c_V : res scat; c_SRF : res scat;
  c_intQ : bool; c_sig0 : bool; c_dB : bool;
  c_fnin : option (list expr); c_fnevin : option compiled;
  c_I0 : res (nd xr);
  c_def : pname -> cdef;
  c_params : dict (res (nd xr));
  c_mono : bool;
  c_ang : angle -> option (res (nd xr));
  c_geom : angs
}.

Definition cdef_of (h : heap) (d : pdef) : cdef :=
  match d with
  | DStr e => CStr e | DSym e => CSym e
  | DVal v => CVal (deref h v) (match v with PNum _ => true | PArr _ => false end)
  end.
Definition val1 (h : heap) (v : pyval) : res (nd xr) := let* x := deref h v in Ok (atleast_1d x).

Definition conf (h : heap) (r : rt1) : config :=
  mk_conf (h_be h) (h_seng h) (scat_at h (r_V r)) (scat_at h (r_SRF r)) (r_intQ r) (r_sig0 r) (r_dB r)
    (r_fn_input r) (r_fnevals_input r) (deref h (r_I0 r))
    (fun p => cdef_of h (r_def r p))
    (map (fun kv => (fst kv, sderef h (snd kv))) (r_params r))
    (r_mono r) (fun a => option_map (val1 h) (r_ang r a)) (r_geom r).

(** ** The methods of _calc.py as functions of the configuration *)
Definition p_stored (c : config) (a : angle) : res (nd xr) :=
  match c_ang c a with None => Err AttributeError | Some v => v end.
(** _calc.py:262-316 *)
Definition p_read (c : config) (a : angle) : res (nd xr) :=
  match a with
  | T0 | P0 => p_stored c a
  | TEx => if c_mono c then p_stored c T0 else p_stored c TEx
  | PEx => if c_mono c then let* p := p_stored c P0 in nadd p (num PI) else p_stored c PEx
  end.
Definition p_mu0 (c : config) : res (nd xr) := let* t := p_read c T0 in Ok (ncos t).
Definition p_muex (c : config) : res (nd xr) := let* t := p_read c TEx in Ok (ncos t).

(** _calc.py:743-796 *)
Definition p_symbs (c : config) (p : pname) : list string :=
  match c_def c p with CStr e => free_syms e | _ => [] end.
Definition p_lookup (ps : dict (res (nd xr))) (k : string) : res (string * nd xr) :=
  match dget ps k with Some v => let* a := v in Ok (k, a) | None => Err KeyError end.
Definition p_call (c : config) (p : pname) (e : expr) : res (nd xr * bool) :=
  let* f := lambdify (c_backend c) (c_seng c) (p_symbs c p) [e] in
  match (let* kw := rmap (p_lookup (c_params c)) (p_symbs c p) in call1 f [] kw) with
  | Ok a => Ok (a, match c_be f, shp a with Sympy, [] => true | _, _ => false end)
  | Err e =>
      match filter (fun k => negb (mem k (dkeys (c_params c)))) (p_symbs c p) with
      | [] => Err e
      | missing => Err (MissingParams missing)
      end
  end.
Definition p_eval (c : config) (p : pname) : res (nd xr * bool) :=
  match c_def c p with
  | CVal v b => let* a := v in Ok (a, b)
  | CStr e | CSym e => p_call c p e
  end.
Definition p_val (c : config) (p : pname) : res (nd xr) := let* v := p_eval c p in Ok (fst v).

Definition p_params (c : config) : res (dict (nd xr)) :=
  rmap (fun kv => let* a := snd kv in Ok (fst kv, a)) (c_params c).
Definition p_scat (c : config) (x : which) : res (nd xr) :=
  let* t0 := p_read c T0 in let* tex := p_read c TEx in
  let* p0 := p_read c P0 in let* pex := p_read c PEx in
  let* kw := p_params c in
  let* s := match x with WV => c_V c | WSRF => c_SRF c end in
  let* f := lambdify (c_backend c) (c_seng c) (angle_names ++ dkeys kw) [phase_function s] in
  call1 f [t0; tex; p0; pex] kw.

(** _calc.py:608-624, 649-663 *)
Definition p_surface (c : config) : res (nd xr) :=
  let* i0 := c_I0 c in let* mu0 := p_mu0 c in let* srf := p_scat c WSRF in
  let* tau := p_val c Tau in let* muex := p_muex c in
  let* norm := p_val c NormBRDF in let* bsf := p_val c Bsf in
  k_surface i0 mu0 muex srf tau norm bsf.
Definition p_volume (c : config) : res (nd xr) :=
  let* i0 := c_I0 c in let* om := p_val c Omega in let* mu0 := p_mu0 c in let* muex := p_muex c in
  let* tau := p_val c Tau in let* v := p_scat c WV in let* bsf := p_val c Bsf in
  k_volume i0 om mu0 muex tau v bsf.

(** the fn-functions compiled afresh (_calc.py:815-873) *)
Definition p_fn (c : config) : res (option (list expr)) :=
  match c_fnin c with
  | Some f => Ok (Some f)
  | None =>
      if c_intQ c then
        let* v := c_V c in let* s := c_SRF c in
        let* f := calc_fn v s (c_geom c) in
        match c_backend c, c_seng c with Symengine, false => Err NameError | _, _ => Ok (Some f) end
      else Ok None
  end.
Definition p_comp (c : config) (f : res (option (list expr))) : res (option compiled) :=
  let* f := f in
  match f with
  | None => Err Unmodelled
  | Some es => let* k := lambdify (c_backend c) (c_seng c) (fn_angle_names ++ dkeys (c_params c)) es in
               Ok (Some k)
  end.
Definition p_fnev (c : config) : res (option compiled) :=
  match c_fnevin c with
  | Some k => Ok (Some k)
  | None => if c_intQ c then p_comp c (p_fn c) else Ok None
  end.

(** the fn-functions the object uses next *)
Definition fn_next (h : heap) (r : rt1) : res (option (list expr)) :=
  match r_fn r with Some f => Ok (Some f) | None => p_fn (conf h r) end.
Definition fnev_next (h : heap) (r : rt1) : res (option compiled) :=
  match r_fnev r with
  | Some k => Ok (Some k)
  | None =>
      match r_fnevals_input r with
      | Some k => Ok (Some k)
      | None => if r_intQ r then p_comp (conf h r) (fn_next h r) else Ok None
      end
  end.

Definition p_nmax (c : config) : res nat :=
  let* v := c_V c in let* s := c_SRF c in
  let* nv := ncoefs v in let* ns := ncoefs s in Ok (nv + ns - 1).

(** _calc.py:1089-1141 *)
Definition p_Fint (c : config) (fe : res (option compiled)) (first : bool) : res (nd xr) :=
  let* t0 := p_read c T0 in let* p0 := p_read c P0 in
  let* tex := p_read c TEx in let* pex := p_read c PEx in
  let* kw := p_params c in
  let* args := broadcast_arrays ((if first then [t0; p0; tex; pex] else [tex; pex; t0; p0]) ++ dvals kw) in
  let* k := fe in
  match k with
  | None => Err TypeError
  | Some k =>
      let* fns := call k args [] in
      let* n := p_nmax c in
      let* mu := if first then p_mu0 c else p_muex c in
      let* mux := k_mux n mu in
      let* tau := p_val c Tau in
      k_Fint n fns mux mu tau
  end.
(** _calc.py:688-703 *)
Definition p_interaction (c : config) (fe : res (option compiled)) : res (nd xr) :=
  let* f1 := p_Fint c fe true in let* f2 := p_Fint c fe false in
  let* i0 := c_I0 c in let* mu0 := p_mu0 c in let* om := p_val c Omega in
  let* tau := p_val c Tau in let* muex := p_muex c in
  let* norm := p_val c NormBRDF in let* bsf := p_val c Bsf in
  k_interaction i0 mu0 muex om tau norm bsf f1 f2.

(** _calc.py:714-730 *)
Definition p_convert (c : config) (val : nd xr) : res (nd xr) :=
  if c_sig0 c then
    let* mu0 := p_mu0 c in let* i0 := c_I0 c in k_convert true (c_dB c) i0 mu0 val
  else k_convert false (c_dB c) (num 1) (num 1) val.

(** _calc.py:515-560 *)
Definition p_parts (c : config) (fe : res (option compiled)) : res (nd xr * nd xr * option (nd xr)) :=
  let* tv := p_eval c Tau in
  let '(tau, is_num) := tv in
  if is_num : bool then
    let* isurf := p_surface c in
    if xgt0 (get tau []) then
      let* ivol := p_volume c in
      let* iint := if c_intQ c then p_interaction c fe else Ok (mk_nd [1] (fun _ => Fin 0%R)) in
      Ok (isurf, ivol, Some iint)
    else Ok (isurf, zeros_like isurf, Some (zeros_like isurf))
  else
    let* isurf := p_surface c in
    let* ivol := p_volume c in
    if c_intQ c then
      let* iint := p_interaction c fe in
      let* tau' := p_val c Tau in
      let* iint := k_fix_nan iint tau' in
      Ok (isurf, ivol, Some iint)
    else Ok (isurf, ivol, None).
Definition p_calc_body (c : config) (fe : res (option compiled)) : res (nd xr) :=
  let* parts := p_parts c fe in
  let '(isurf, ivol, iint) := parts in
  let* rows := k_rows isurf ivol (if c_intQ c then iint else None) in
  p_convert c rows.

(** _calc.py:562-583: the exception handler of calc *)
Definition p_all_symbs (c : config) : list string :=
  p_symbs c Tau ++ p_symbs c Omega ++ p_symbs c NormBRDF ++ p_symbs c Bsf.
Definition p_missing (c : config) : res (list string) :=
  let* v := c_V c in let* s := c_SRF c in
  Ok (dedup_diff (p_all_symbs c ++ free_syms (phase_function v) ++ free_syms (phase_function s))
                 (angle_names ++ dkeys (c_params c))).
Definition p_handle (c : config) (x : res (nd xr)) : res (nd xr) :=
  match x with
  | Ok a => Ok a
  | Err e =>
      match e with
      | TypeError | MissingParams _ =>
          let* symbs := p_missing c in
          match symbs with [] => Err e | _ => Err (MissingParams symbs) end
      | _ => Err e
      end
  end.
Definition p_calc (c : config) (fe : res (option compiled)) : res (nd xr) := p_handle c (p_calc_body c fe).

(** ** Correspondence with the methods *)
Definition pure_at {A} (h0 : heap) (C : config) (fe : res (option compiled)) (o : nat)
  (m : M A) (x : res A) : Prop :=
  forall l k r, nth_error l o = Some r -> conf h0 r = C -> fnev_next h0 r = fe ->
  exists r', m (mk_world (set_objs h0 l) false k) =
               (mk_world (set_objs h0 (list_set l o r')) false k, x) /\
             strip r' = strip r /\ conf h0 r' = C /\ fnev_next h0 r' = fe.

Lemma list_set_self {A} (l : list A) i x : nth_error l i = Some x -> list_set l i x = l.
Proof.
  revert i. induction l as [|y l IH]; intros [|i] H; simpl in *; try congruence.
  f_equal. now apply IH.
Qed.
Lemma list_set_twice {A} (l : list A) i x y : list_set (list_set l i x) i y = list_set l i y.
Proof. revert i. induction l as [|z l IH]; intros [|i]; simpl; congruence. Qed.
Lemma nth_error_list_set_same {A} (l : list A) i x y :
  nth_error l i = Some y -> nth_error (list_set l i x) i = Some x.
Proof.
  revert i. induction l as [|z l IH]; intros [|i] H; simpl in *; try discriminate; auto.
Qed.

Section Rules.
  Context (h0 : heap) (C : config) (fe : res (option compiled)) (o : nat).
  Notation at_ := (pure_at h0 C fe o).

  Lemma at_pure {A} (m : M A) f x : pureU m f ->
    (forall l r, nth_error l o = Some r -> conf h0 r = C -> f (set_objs h0 l) = x) -> at_ m x.
  Proof.
    intros Hm Hf l k r Hn Hc Hfe. exists r. rewrite Hm by reflexivity. simpl.
    rewrite (list_set_self _ _ _ Hn), (Hf _ _ Hn Hc). auto.
  Qed.
  Lemma at_ret {A} (a : A) : at_ (ret a) (Ok a).
  Proof. eapply at_pure; [apply pureU_ret|]. reflexivity. Qed.
  Lemma at_lift {A} (x : res A) : at_ (lift x) x.
  Proof. eapply at_pure; [apply pureU_lift|]. reflexivity. Qed.
  Lemma at_fail {A} e : at_ (@fail A e) (Err e).
  Proof. eapply at_pure; [apply pureU_fail|]. reflexivity. Qed.
  Lemma at_bind {A B} (m : M A) (k : A -> M B) x (f : A -> res B) :
    at_ m x -> (forall a, x = Ok a -> at_ (k a) (f a)) -> at_ (bind m k) (let* a := x in f a).
  Proof.
    intros Hm Hk l c r Hn Hc Hfe. destruct (Hm l c r Hn Hc Hfe) as (r1 & E & Hs & Hc1 & Hf1).
    unfold bind. rewrite E. destruct x as [a|e]; simpl.
    - destruct (Hk a eq_refl (list_set l o r1) c r1) as (r2 & E2 & Hs2 & Hc2 & Hf2); auto.
      { eapply nth_error_list_set_same; eassumption. }
      exists r2. rewrite E2, list_set_twice. repeat split; congruence.
    - exists r1. auto.
  Qed.
  Lemma at_get {A} (k : rt1 -> M A) x :
    (forall r, conf h0 r = C -> fnev_next h0 r = fe -> at_ (k r) x) -> at_ (bind (get_obj o) k) x.
  Proof.
    intros Hk l c r Hn Hc Hfe. unfold bind, get_obj, gets. simpl. unfold obj. simpl. rewrite Hn. simpl.
    now apply Hk.
  Qed.
  Lemma at_catch {A} (m : M A) (k : exn -> M A) x (f : exn -> res A) :
    at_ m x -> (forall e, at_ (k e) (f e)) ->
    at_ (catch m k) (match x with Ok a => Ok a | Err e => f e end).
  Proof.
    intros Hm Hk l c r Hn Hc Hfe. destruct (Hm l c r Hn Hc Hfe) as (r1 & E & Hs & Hc1 & Hf1).
    unfold catch. rewrite E. destruct x as [a|e].
    - exists r1. auto.
    - destruct (Hk e (list_set l o r1) c r1) as (r2 & E2 & Hs2 & Hc2 & Hf2); auto.
      { eapply nth_error_list_set_same; eassumption. }
      exists r2. rewrite E2, list_set_twice. repeat split; congruence.
  Qed.
  Lemma at_ext {A} (m : M A) x y : at_ m x -> x = y -> at_ m y.
  Proof. intros H <-. exact H. Qed.
End Rules.

Ltac cobj := let l := fresh in let r := fresh in let Hn := fresh in let Hc := fresh in
  intros l r Hn Hc; unfold obj; simpl h_objs; rewrite Hn; subst; reflexivity.

Section Methods.
  Context (h0 : heap) (C : config) (fe : res (option compiled)) (o : nat).
  Notation at_ := (pure_at h0 C fe o).

  Lemma rbind_assoc {A B D} (x : res A) (f : A -> res B) (g : B -> res D) :
    rbind (rbind x f) g = let* a := x in rbind (f a) g.
  Proof. now destruct x. Qed.
  Lemma rbind_ext {A B} (x : res A) (f g : A -> res B) : (forall a, x = Ok a -> f a = g a) -> rbind x f = rbind x g.
  Proof. destruct x; simpl; auto. Qed.

  Lemma stored_conf l r a : conf h0 r = C -> stored_ang (set_objs h0 l) r a = p_stored C a.
  Proof.
    intros <-. unfold stored_ang, p_stored, conf. simpl. destruct (r_ang r a); reflexivity.
  Qed.
  Lemma read_conf l r a : conf h0 r = C -> read_ang (set_objs h0 l) r a = p_read C a.
  Proof.
    intros H. unfold read_ang, p_read.
    replace (c_mono C) with (r_mono r) by (subst; reflexivity).
    destruct a; rewrite ?(stored_conf l r _ H); reflexivity.
  Qed.
  Lemma at_ang a : at_ (m_ang o a) (p_read C a).
  Proof.
    eapply at_pure; [apply pure_m_ang|]. intros l r Hn Hc. unfold obj. simpl. rewrite Hn. simpl.
    now apply read_conf.
  Qed.
  Lemma at_I0 : at_ (get_I0 o) (c_I0 C).
  Proof.
    eapply at_pure; [apply pure_get_I0|]. intros l r Hn Hc. unfold obj. simpl. rewrite Hn. simpl. subst C. reflexivity.
  Qed.
  Lemma at_mu0 : at_ (mu_0 o) (p_mu0 C).
  Proof.
    eapply at_pure; [apply pure_mu_0|]. intros l r Hn Hc. unfold h_mu, obj. simpl h_objs. rewrite Hn.
    cbn [opt_res rbind]. rewrite (read_conf l r T0 Hc). reflexivity.
  Qed.
  Lemma at_muex : at_ (mu_ex o) (p_muex C).
  Proof.
    eapply at_pure; [apply pure_mu_ex|]. intros l r Hn Hc. unfold h_mu, obj. simpl h_objs. rewrite Hn.
    cbn [opt_res rbind]. rewrite (read_conf l r TEx Hc). reflexivity.
  Qed.
  Lemma at_nmax : at_ (m_nmax o) (p_nmax C).
  Proof.
    eapply at_pure; [apply pure_nmax|]. intros l r Hn Hc. unfold h_nmax, obj. simpl h_objs. rewrite Hn.
    subst C. reflexivity.
  Qed.
  Lemma at_mux : at_ (mu_0_x o) (let* n := p_nmax C in let* mu := p_mu0 C in k_mux n mu).
  Proof.
    eapply at_pure; [apply pure_mu_0_x|]. intros l r Hn Hc. unfold h_mux, h_nmax, h_mu, obj. simpl h_objs. rewrite Hn.
    cbn [opt_res rbind]. rewrite (read_conf l r T0 Hc). subst C. reflexivity.
  Qed.
  Lemma at_muexx : at_ (mu_ex_x o) (let* n := p_nmax C in let* mu := p_muex C in k_mux n mu).
  Proof.
    eapply at_pure; [apply pure_mu_ex_x|]. intros l r Hn Hc. unfold h_mux, h_nmax, h_mu, obj. simpl h_objs. rewrite Hn.
    cbn [opt_res rbind]. rewrite (read_conf l r TEx Hc). subst C. reflexivity.
  Qed.
  Lemma symbs_conf r p : conf h0 r = C ->
    match r_def r p with DStr e => free_syms e | _ => [] end = p_symbs C p.
  Proof. intros <-. unfold p_symbs, conf. simpl. destruct (r_def r p); reflexivity. Qed.
  Lemma at_symbs p : at_ (get_param_symbs o p) (Ok (p_symbs C p)).
  Proof.
    eapply at_pure; [apply pure_symbs|]. intros l r Hn Hc. unfold h_symbs, obj. simpl h_objs. rewrite Hn.
    cbn [opt_res rbind]. now rewrite (symbs_conf r p Hc).
  Qed.
  Lemma dget_map {A B} (f : A -> B) (d : dict A) k :
    dget (map (fun kv => (fst kv, f (snd kv))) d) k = option_map f (dget d k).
  Proof. induction d as [|[k' v] d IH]; simpl; [reflexivity|]. destruct (String.eqb k k'); auto. Qed.
  Lemma keys_conf r : conf h0 r = C -> dkeys (r_params r) = dkeys (c_params C).
  Proof. intros <-. unfold conf. simpl. symmetry. apply dkeys_map. Qed.
  Lemma rmap_ext {A B} (f g : A -> res B) l : (forall a, f a = g a) -> rmap f l = rmap g l.
  Proof. intros H. induction l as [|x l IH]; simpl; [reflexivity|]. now rewrite H, IH. Qed.
  Lemma at_eval p : at_ (eval_param o p) (p_eval C p).
  Proof.
    unfold eval_param.
    assert (Hf : at_ (get_param_funcs o p)
       (match c_def C p with CVal _ _ => Ok None
        | CStr e | CSym e => let* f := lambdify (c_backend C) (c_seng C) (p_symbs C p) [e] in Ok (Some f) end)).
    { eapply at_pure; [apply pure_funcs|]. intros l r Hn Hc. unfold h_funcs, h_symbs, obj. simpl h_objs. rewrite Hn.
      cbn [opt_res rbind]. rewrite (symbs_conf r p Hc). subst C. unfold conf; simpl. destruct (r_def r p); reflexivity. }
    eapply at_ext.
    { eapply at_bind; [exact Hf|]. intros f Ef.
      instantiate (1 := fun f => match f with None => match c_def C p with CVal v b => let* a := v in Ok (a, b) | _ => Err Unmodelled end
        | Some k => match (let* kw := rmap (p_lookup (c_params C)) (p_symbs C p) in call1 k [] kw) with
  | Ok a => Ok (a, match c_be k, shp a with Sympy, [] => true | _, _ => false end)
  | Err e =>
      match filter (fun k => negb (mem k (dkeys (c_params C)))) (p_symbs C p) with
      | [] => Err e
      | missing => Err (MissingParams missing)
      end
  end end). cbn beta.
      destruct f as [k|].
      - eapply at_ext.
        { eapply at_bind; [apply at_symbs|]. intros ss Es. injection Es as <-.
          instantiate (1 := fun _ => match (let* kw := rmap (p_lookup (c_params C)) (p_symbs C p) in call1 k [] kw) with
  | Ok a => Ok (a, match c_be k, shp a with Sympy, [] => true | _, _ => false end)
  | Err e =>
      match filter (fun k => negb (mem k (dkeys (c_params C)))) (p_symbs C p) with
      | [] => Err e
      | missing => Err (MissingParams missing)
      end end). cbn beta.
          apply at_get. intros r Hc _. rewrite (keys_conf r Hc).
          eapply at_ext.
          { apply at_bind with (x := Ok (let* kw := rmap (fun k0 => match dget (r_params r) k0 with
                     | Some v => let* a := sderef h0 v in Ok (k0, a) | None => Err KeyError end) (p_symbs C p) in call1 k [] kw)).
            - eapply at_pure; [apply pureU_gets|]. intros l r' Hn Hc'. cbn beta. reflexivity.
            - intros x Ex. instantiate (1 := fun x => match x with Ok a => Ok (a, match c_be k, shp a with Sympy, [] => true | _, _ => false end)
  | Err e =>
      match filter (fun k => negb (mem k (dkeys (c_params C)))) (p_symbs C p) with
      | [] => Err e
      | missing => Err (MissingParams missing)
      end end). cbn beta.
              destruct x as [a|e]; [apply at_ret|]. destruct (filter _ _); apply at_fail. }
          cbn [rbind].
          assert (E : rmap (fun k0 => match dget (r_params r) k0 with
                     | Some v => let* a := sderef h0 v in Ok (k0, a) | None => Err KeyError end) (p_symbs C p)
                  = rmap (p_lookup (c_params C)) (p_symbs C p)).
          { apply rmap_ext. intros s. unfold p_lookup. subst C. unfold conf; simpl. rewrite dget_map.
            destruct (dget (r_params r) s); reflexivity. }
          rewrite <- E. reflexivity. }
        reflexivity.
      - apply at_get. intros r Hc _. subst C. unfold conf; simpl. destruct (r_def r p); simpl; try apply at_fail.
        eapply at_ext.
        { apply at_bind with (x := deref h0 v); [eapply at_pure; [apply pureU_gets|]; intros l r' Hn Hc'; reflexivity|].
          intros a Ea. apply at_ret. }
        reflexivity. }
    unfold p_eval, p_call. destruct (c_def C p); simpl; try reflexivity;
      destruct (lambdify _ _ _ _); simpl; reflexivity.
  Qed.
  Lemma at_val p : at_ (param_val o p) (p_val C p).
  Proof.
    unfold param_val, p_val. apply at_bind; [apply at_eval|]. intros; apply at_ret.
  Qed.

  Lemma params_conf r : conf h0 r = C -> params_nd h0 r = p_params C.
  Proof.
    intros <-. unfold params_nd, p_params, conf; simpl. induction (r_params r) as [|[k v] d IH]; simpl; [reflexivity|].
    rewrite IH. reflexivity.
  Qed.
  Lemma at_params r : conf h0 r = C -> at_ (gets (fun h => params_nd h r)) (p_params C).
  Proof.
    intros Hc. eapply at_pure; [apply pureU_gets|]. intros l r' _ _. rewrite <- (params_conf r Hc). reflexivity.
  Qed.
  Lemma at_scat_calc r x t0 tex p0 pex kw : conf h0 r = C ->
    at_ (scat_calc (scat_id r x) t0 tex p0 pex kw)
        (let* s := match x with WV => c_V C | WSRF => c_SRF C end in
         let* f := lambdify (c_backend C) (c_seng C) (angle_names ++ dkeys kw) [phase_function s] in
         call1 f [t0; tex; p0; pex] kw).
  Proof.
    intros Hc. unfold scat_calc. eapply at_ext.
    { apply at_bind with (x := h_lambda h0 (scat_id r x) (dkeys kw)); [eapply at_pure; [apply pure_lambda|]; intros l r' _ _; reflexivity|].
      intros c Ec. apply at_lift. }
    subst C. unfold h_lambda, conf; simpl. rewrite rbind_assoc. destruct x; reflexivity.
  Qed.
  Lemma at_scat x : at_ (obj_scat_calc o x) (p_scat C x).
  Proof.
    unfold obj_scat_calc, p_scat.
    apply at_bind; [apply at_ang|]; intros t0 _. apply at_bind; [apply at_ang|]; intros tex _.
    apply at_bind; [apply at_ang|]; intros p0 _. apply at_bind; [apply at_ang|]; intros pex _.
    apply at_get. intros r Hc _. apply at_bind; [now apply at_params|]. intros kw _. now apply at_scat_calc.
  Qed.

  Lemma at_surface : at_ (m_surface o) (p_surface C).
  Proof.
    unfold m_surface, p_surface.
    apply at_bind; [apply at_I0|intros ? _]. apply at_bind; [apply at_mu0|intros ? _].
    apply at_bind; [apply at_scat|intros ? _]. apply at_bind; [apply at_val|intros ? _].
    apply at_bind; [apply at_muex|intros ? _]. apply at_bind; [apply at_val|intros ? _].
    apply at_bind; [apply at_val|intros ? _]. apply at_lift.
  Qed.
  Lemma at_volume : at_ (m_volume o) (p_volume C).
  Proof.
    unfold m_volume, p_volume.
    apply at_bind; [apply at_I0|intros ? _]. apply at_bind; [apply at_val|intros ? _].
    apply at_bind; [apply at_mu0|intros ? _]. apply at_bind; [apply at_muex|intros ? _].
    apply at_bind; [apply at_val|intros ? _]. apply at_bind; [apply at_scat|intros ? _].
    apply at_bind; [apply at_val|intros ? _]. apply at_lift.
  Qed.

  Lemma at_fnevals : at_ (m_fnevals o) fe.
  Proof.
    intros l k r Hn Hc Hfe. unfold m_fnevals, m_fn, put_obj, bind, get_obj, gets, obj, ret, fail. simpl.
    rewrite Hn. simpl. pose proof Hfe as Hfe'. unfold fnev_next in Hfe.
    assert (Keep : exists r', (mk_world (set_objs h0 l) false k, fe) =
       (mk_world (set_objs h0 (list_set l o r')) false k, fe) /\ strip r' = strip r /\ conf h0 r' = C /\ fnev_next h0 r' = fe).
    { exists r. rewrite (list_set_self _ _ _ Hn). auto. }
    destruct (r_fnev r) as [c|] eqn:E1; [subst fe; exact Keep|].
    destruct (r_fnevals_input r) as [c|] eqn:E2; [subst fe; exact Keep|].
    destruct (r_intQ r) eqn:E3; [|subst fe; exact Keep].
    cbn [w_heap h_objs set_objs opt_res]. rewrite ?Hn. cbn [opt_res].
    unfold fn_next in Hfe. unfold fnev_next, fn_next in Hfe'.
    assert (Fin : forall f (r1 : rt1) (k' : cname -> lru), strip r1 = strip r -> r_fn r1 = Some f \/ r_fn_input r1 = Some f /\ r_fn r1 = None ->
       r_fnev r1 = None ->
       fe = p_comp (conf h0 r) (Ok (Some f)) ->
       exists r', (let '(w', r0) := (let w := mk_world (set_objs h0 (list_set l o r1)) false k' in
          (w, lambdify (h_be h0) (h_seng h0) (fn_angle_names ++ dkeys (r_params r)) f)) in
          match r0 with
          | Ok a => let '(w'0, r2) := (w', opt_res (nth_error (h_objs (w_heap w')) o) Unmodelled) in
             match r2 with
             | Ok a0 => (set_heap w'0 (set_objs (w_heap w'0) (list_set (h_objs (w_heap w'0)) o (with_fnev a0 (Some a)))), Ok (Some a))
             | Err e => (w'0, Err e) end
          | Err e => (w', Err e) end) =
         (mk_world (set_objs h0 (list_set l o r')) false k', fe) /\
         strip r' = strip r /\ conf h0 r' = C /\ fnev_next h0 r' = fe).
    { intros f r1 k' Hs Hf Hfn1 Hfeq. assert (Hc1 : conf h0 r1 = C).
      { rewrite <- Hc. unfold conf. change (r_V r1) with (r_V (strip r1)). change (r_SRF r1) with (r_SRF (strip r1)).
        change (r_intQ r1) with (r_intQ (strip r1)). change (r_sig0 r1) with (r_sig0 (strip r1)).
        change (r_dB r1) with (r_dB (strip r1)). change (r_fn_input r1) with (r_fn_input (strip r1)).
        change (r_fnevals_input r1) with (r_fnevals_input (strip r1)). change (r_I0 r1) with (r_I0 (strip r1)).
        change (r_def r1) with (r_def (strip r1)). change (r_params r1) with (r_params (strip r1)).
        change (r_mono r1) with (r_mono (strip r1)). change (r_ang r1) with (r_ang (strip r1)).
        change (r_geom r1) with (r_geom (strip r1)). rewrite Hs. reflexivity. }
      unfold p_comp in Hfeq. cbn [rbind] in Hfeq.
      replace (lambdify (h_be h0) (h_seng h0) (fn_angle_names ++ dkeys (r_params r)) f)
        with (lambdify (c_backend (conf h0 r)) (c_seng (conf h0 r)) (fn_angle_names ++ dkeys (c_params (conf h0 r))) f).
      2:{ rewrite Hc, <- (keys_conf r Hc), <- Hc. reflexivity. }
      destruct (lambdify _ _ _ f) as [c|e] eqn:El; simpl in Hfeq.
      - simpl. rewrite (nth_error_list_set_same _ _ _ _ Hn). simpl.
        exists (with_fnev r1 (Some c)). rewrite list_set_twice. rewrite Hfeq. split; [reflexivity|]. split; [exact Hs|]. split; [exact Hc1|reflexivity].
      - exists r1. rewrite Hfeq. split; [reflexivity|]. split; [exact Hs|]. split; [exact Hc1|]. unfold fnev_next. rewrite Hfn1.
        replace (r_fnevals_input r1) with (r_fnevals_input r) by (change (r_fnevals_input (strip r) = r_fnevals_input (strip r1)); now rewrite Hs).
        replace (r_intQ r1) with (r_intQ r) by (change (r_intQ (strip r) = r_intQ (strip r1)); now rewrite Hs).
        rewrite E2, E3. replace (fn_next h0 r1) with (@Ok (option (list expr)) (Some f)).
        + unfold p_comp. cbn [rbind]. rewrite Hc1, <- Hc, El. reflexivity.
        + unfold fn_next. destruct Hf as [->|[Hf ->]]; [reflexivity|]. unfold p_fn. simpl. now rewrite Hf. }
    destruct (r_fn r) as [f|] eqn:E4.
    { specialize (Fin f r k eq_refl (or_introl E4) E1 (eq_sym Hfe)). rewrite (list_set_self _ _ _ Hn) in Fin. exact Fin. }
    destruct (r_fn_input r) as [f|] eqn:E5.
    { specialize (Fin f r k eq_refl (or_intror (conj E5 E4)) E1). unfold p_fn in Hfe; simpl in Hfe. rewrite E5 in Hfe.
      specialize (Fin (eq_sym Hfe)). rewrite (list_set_self _ _ _ Hn) in Fin. exact Fin. }
    unfold p_fn in Hfe. simpl in Hfe. rewrite E5, E3 in Hfe.
    rewrite ?E3. cbn [w_heap h_be h_seng set_objs].
    change (scat_at (set_objs h0 l) (r_V r)) with (scat_at h0 (r_V r)).
    change (scat_at (set_objs h0 l) (r_SRF r)) with (scat_at h0 (r_SRF r)).
    change (h_be (set_objs h0 l)) with (h_be h0). change (h_seng (set_objs h0 l)) with (h_seng h0).
    destruct (scat_at h0 (r_V r)) as [v|e]; cbn [rbind] in *; [|subst fe; exact Keep].
    destruct (scat_at h0 (r_SRF r)) as [s|e]; cbn [rbind] in *; [|subst fe; exact Keep].
    destruct (calc_fn v s (r_geom r)) as [f|e]; cbn [rbind] in *; [|subst fe; exact Keep].
    specialize (Fin f (with_fn r (Some f)) k eq_refl (or_introl eq_refl) E1).
    assert (D : (match h_be h0 with Sympy => Ok f | Symengine => if h_seng h0 then Ok f else Err NameError end = Ok f /\
                match h_be h0 with Sympy => Ok (Some f) | Symengine => if h_seng h0 then Ok (Some f) else Err NameError end = Ok (Some f)) \/
               (match h_be h0 with Sympy => Ok f | Symengine => if h_seng h0 then Ok f else Err NameError end = Err NameError /\
                match h_be h0 with Sympy => Ok (Some f) | Symengine => if h_seng h0 then Ok (Some f) else Err NameError end = Err NameError)).
    { destruct (h_be h0), (h_seng h0); auto. }
    destruct D as [[D1 D2]|[D1 D2]]; rewrite D1; rewrite D2 in Hfe.
    - exact (Fin (eq_sym Hfe)).
    - subst fe. exact Keep.
  Qed.

  Lemma at_Fint b : at_ (m_Fint o b) (p_Fint C fe b).
  Proof.
    unfold m_Fint, p_Fint.
    apply at_bind; [apply at_ang|]; intros t0 _. apply at_bind; [apply at_ang|]; intros p0 _.
    apply at_bind; [apply at_ang|]; intros tex _. apply at_bind; [apply at_ang|]; intros pex _.
    apply at_get. intros r Hc _. apply at_bind; [now apply at_params|]. intros kw _.
    apply at_bind; [apply at_lift|]. intros args _. apply at_bind; [apply at_fnevals|]. intros [c|] _; [|apply at_fail].
    apply at_bind; [apply at_lift|]. intros fns _.
    eapply at_ext.
    { apply at_bind with (x := let* n := p_nmax C in let* mu := if b then p_mu0 C else p_muex C in k_mux n mu).
      { destruct b; [apply at_mux|apply at_muexx]. }
      intros mux _. apply at_bind with (x := if b then p_mu0 C else p_muex C).
      { destruct b; [apply at_mu0|apply at_muex]. }
      intros mu _. apply at_bind; [apply at_val|]. intros tau _. apply at_bind; [apply at_nmax|]. intros n _.
      apply at_lift. }
    destruct (p_nmax C) as [n|e]; simpl; [|reflexivity].
    destruct (if b then p_mu0 C else p_muex C) as [mu|e]; simpl; [|reflexivity].
    destruct (k_mux n mu); simpl; reflexivity.
  Qed.
  Lemma at_interaction : at_ (m_interaction o) (p_interaction C fe).
  Proof.
    unfold m_interaction, p_interaction.
    apply at_bind; [apply at_Fint|intros ? _]. apply at_bind; [apply at_Fint|intros ? _].
    apply at_bind; [apply at_I0|intros ? _]. apply at_bind; [apply at_mu0|intros ? _].
    apply at_bind; [apply at_val|intros ? _]. apply at_bind; [apply at_val|intros ? _].
    apply at_bind; [apply at_muex|intros ? _]. apply at_bind; [apply at_val|intros ? _].
    apply at_bind; [apply at_val|intros ? _]. apply at_lift.
  Qed.
  Lemma at_convert v : at_ (m_convert o v) (p_convert C v).
  Proof.
    unfold m_convert, p_convert. apply at_get. intros r Hc _.
    replace (c_sig0 C) with (r_sig0 r) by (subst C; reflexivity).
    replace (c_dB C) with (r_dB r) by (subst C; reflexivity).
    destruct (r_sig0 r); [|apply at_lift].
    apply at_bind; [apply at_mu0|intros ? _]. apply at_bind; [apply at_I0|intros ? _]. apply at_lift.
  Qed.
  Lemma at_calc_body : at_ (m_calc_body o) (p_calc_body C fe).
  Proof.
    unfold m_calc_body, p_calc_body, p_parts. rewrite rbind_assoc.
    apply at_bind; [apply at_eval|]. intros [tau isn] _. apply at_get. intros r Hc _.
    replace (c_intQ C) with (r_intQ r) by (subst C; reflexivity).
    apply at_bind.
    - destruct isn.
      + apply at_bind; [apply at_surface|intros isurf _]. destruct (xgt0 _); [|apply at_ret].
        apply at_bind; [apply at_volume|intros ivol _]. apply at_bind; [|intros; apply at_ret].
        destruct (r_intQ r); [apply at_interaction|apply at_ret].
      + apply at_bind; [apply at_surface|intros isurf _]. apply at_bind; [apply at_volume|intros ivol _].
        destruct (r_intQ r); [|apply at_ret].
        apply at_bind; [apply at_interaction|intros ? _]. apply at_bind; [apply at_val|intros ? _].
        apply at_bind; [apply at_lift|intros ? _]. apply at_ret.
    - intros [[isurf ivol] iint] _. apply at_bind; [apply at_lift|intros ? _]. apply at_convert.
  Qed.
  Lemma at_all_symbs : at_ (all_param_symbs o) (Ok (p_all_symbs C)).
  Proof.
    unfold all_param_symbs, p_all_symbs. eapply at_ext.
    { apply at_bind; [apply at_symbs|intros ? _]. apply at_bind; [apply at_symbs|intros ? _].
      apply at_bind; [apply at_symbs|intros ? _]. apply at_bind; [apply at_symbs|intros ? _]. apply at_ret. }
    reflexivity.
  Qed.
  Lemma at_handler e : at_ (match e with
       | TypeError | MissingParams _ =>
           do ss <- all_param_symbs o ;;
           do r <- get_obj o ;;
           do symbs <- gets (fun h =>
             let* v := scat_at h (r_V r) in let* s := scat_at h (r_SRF r) in
             Ok (dedup_diff (ss ++ free_syms (phase_function v) ++ free_syms (phase_function s))
                            (angle_names ++ dkeys (r_params r)))) ;;
           match symbs with [] => fail e | _ => fail (MissingParams symbs) end
       | _ => fail e
       end) (p_handle C (Err e)).
  Proof.
    assert (H : at_ (do ss <- all_param_symbs o ;;
           do r <- get_obj o ;;
           do symbs <- gets (fun h =>
             let* v := scat_at h (r_V r) in let* s := scat_at h (r_SRF r) in
             Ok (dedup_diff (ss ++ free_syms (phase_function v) ++ free_syms (phase_function s))
                            (angle_names ++ dkeys (r_params r)))) ;;
           match symbs with [] => fail e | _ => fail (MissingParams symbs) end)
         (let* symbs := p_missing C in
          match symbs with [] => @Err (nd xr) e | _ => Err (MissingParams symbs) end)).
    { eapply at_ext with (x := let* _ := Ok (p_all_symbs C) in let* symbs := p_missing C in
          match symbs with [] => @Err (nd xr) e | _ => Err (MissingParams symbs) end); [|reflexivity].
      apply at_bind; [apply at_all_symbs|]. intros ss Es. injection Es as <-.
      apply at_get. intros r Hc _. apply at_bind.
      - eapply at_pure; [apply pureU_gets|]. intros l r' _ _. unfold p_missing. rewrite <- (keys_conf r Hc).
        subst C. reflexivity.
      - intros symbs _. destruct symbs; apply at_fail. }
    destruct e; try exact H; apply at_fail.
  Qed.
End Methods.
