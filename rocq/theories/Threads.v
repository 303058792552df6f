(** Several Python threads calling methods of RT1 objects.

    A thread is a sequence of atomic steps; between two steps any other thread may run.  The evaluation
    methods (calc, surface, volume, interaction, jacobian) are split: reading an attribute or a property,
    looking up or computing one memoised function, [dict.update], storing the coefficients of the interaction
    term, storing the functions compiled from them and each key of jacobian() is one step.
    Simplifications: an lru_cache lookup and the computation after a miss are one step; so are the derivative
    for one key of jacobian() and each call that configures the object (set_geometry, set_monostatic, set_bistatic, the property
    setters).  CPython's own data structures are taken to be safe under the GIL. *)
From Verif Require Export Local.
Open Scope string_scope.
Open Scope nat_scope.
Open Scope list_scope.

(** what is left to do: nothing (with the result), or a step and what follows it *)
Inductive prog (A : Type) : Type :=
| Done (r : res A)
| Act (B : Type) (m : M B) (k : res B -> prog A).
Arguments Done {A} r.
Arguments Act {A B} m k.

Fixpoint pbind {A B} (p : prog A) (k : A -> prog B) : prog B :=
  match p with
  | Done (Ok a) => k a
  | Done (Err e) => Done (Err e)
  | @Act _ _ m f => Act m (fun r => pbind (f r) k)
  end.
Fixpoint pcatch {A} (p : prog A) (k : exn -> prog A) : prog A :=
  match p with
  | Done (Ok a) => Done (Ok a)
  | Done (Err e) => k e
  | @Act _ _ m f => Act m (fun r => pcatch (f r) k)
  end.
Definition atom {A} (m : M A) : prog A := Act m Done.
Definition pret {A} (a : A) : prog A := Done (Ok a).
Definition pfail {A} (e : exn) : prog A := Done (Err e).
(** the caller sees the value or the exception *)
Fixpoint pout {A} (f : A -> out) (p : prog A) : prog out :=
  match p with
  | Done (Ok a) => Done (Ok (f a))
  | Done (Err e) => Done (Ok (Raised e))
  | @Act _ _ m g => Act m (fun r => pout f (g r))
  end.
Notation "'one' x '<-' m ';;' k" := (pbind (atom m) (fun x => k)) (at level 200, x name, m at level 100, k at level 200, right associativity).
Notation "'sub' x '<-' p ';;' k" := (pbind p (fun x => k)) (at level 200, x name, p at level 100, k at level 200, right associativity).

(** ** The methods, step by step *)

(** _calc.py:769-796 _eval_param *)
Definition p_eval_param (o : nat) (p : pname) : prog (nd xr * bool) :=
  one func <- get_param_funcs o p ;;
  match func with
  | Some c =>
      one syms <- get_param_symbs o p ;;
      one r <- get_obj o ;;
      one res <- gets (fun h => Ok (
        let* kw := rmap (fun k => match dget (r_params r) k with
                                  | Some v => let* a := sderef h v in Ok (k, a)
                                  | None => Err KeyError
                                  end) syms in
        call1 c [] kw)) ;;
      match res with
      | Ok a => pret (a, match c_be c, shp a with Sympy, [] => true | _, _ => false end)
      | Err e =>
          match filter (fun k => negb (mem k (dkeys (r_params r)))) syms with
          | [] => pfail e
          | missing => pfail (MissingParams missing)
          end
      end
  | None =>
      one r <- get_obj o ;;
      match r_def r p with
      | DVal v => one a <- gets (fun h => deref h v) ;;
                  pret (a, match v with PNum _ => true | PArr _ => false end)
      | _ => pfail Unmodelled
      end
  end.
(** _calc.py:212-260 the properties tau, omega, NormBRDF, bsf *)
Definition p_param_val (o : nat) (p : pname) : prog (nd xr) := sub v <- p_eval_param o p ;; pret (fst v).

(** _scatter.py:149-175 calc, called with the angles and param_dict of the object *)
Definition p_scat (o : nat) (x : which) : prog (nd xr) :=
  one t0 <- m_ang o T0 ;; one tex <- m_ang o TEx ;; one p0 <- m_ang o P0 ;; one pex <- m_ang o PEx ;;
  one r <- get_obj o ;;
  one kw <- gets (fun h => params_nd h r) ;;
  one c <- lambda_func (scat_id r x) (dkeys kw) ;;
  one v <- lift (call1 c [t0; tex; p0; pex] kw) ;; pret v.

(** _calc.py:608-624 _surface *)
Definition p_surface (o : nat) : prog (nd xr) :=
  one i0 <- get_I0 o ;; one mu0 <- mu_0 o ;; sub srf <- p_scat o WSRF ;;
  sub tau <- p_param_val o Tau ;; one muex <- mu_ex o ;;
  sub norm <- p_param_val o NormBRDF ;; sub bsf <- p_param_val o Bsf ;;
  atom (lift (k_surface i0 mu0 muex srf tau norm bsf)).
(** _calc.py:649-663 _volume *)
Definition p_volume (o : nat) : prog (nd xr) :=
  one i0 <- get_I0 o ;; sub om <- p_param_val o Omega ;; one mu0 <- mu_0 o ;; one muex <- mu_ex o ;;
  sub tau <- p_param_val o Tau ;; sub v <- p_scat o WV ;;
  sub bsf <- p_param_val o Bsf ;;
  atom (lift (k_volume i0 om mu0 muex tau v bsf)).
(** _calc.py:815-843 _fn: the attributes are read, the coefficients computed, and stored *)
Definition p_fn (o : nat) : prog (option (list expr)) :=
  one r <- get_obj o ;;
  match r_fn r with
  | Some f => pret (Some f)
  | None =>
      match r_fn_input r with
      | Some f => pret (Some f)
      | None =>
          if r_intQ r then
            one f <- gets (fun h =>
              let* v := scat_at h (r_V r) in let* s := scat_at h (r_SRF r) in
              let* f := calc_fn v s (r_geom r) in
              match h_be h, h_seng h with
              | Symengine, false => Err NameError
              | _, _ => Ok f
              end) ;;
            one _ <- (do r <- get_obj o ;; put_obj o (with_fn r (Some f))) ;;
            pret (Some f)
          else pret None
      end
  end.
(** _calc.py:845-873 _fnevals *)
Definition p_fnevals (o : nat) : prog (option compiled) :=
  one r <- get_obj o ;;
  match r_fnev r with
  | Some c => pret (Some c)
  | None =>
      match r_fnevals_input r with
      | Some c => pret (Some c)
      | None =>
          if r_intQ r then
            sub f <- p_fn o ;;
            match f with
            | None => pfail Unmodelled
            | Some es =>
                one c <- gets (fun h => lambdify (h_be h) (h_seng h) (fn_angle_names ++ dkeys (r_params r)) es) ;;
                one _ <- (do r <- get_obj o ;; put_obj o (with_fnev r (Some c))) ;;
                pret (Some c)
            end
          else pret None
      end
  end.
(** _calc.py:1089-1141 _calc_Fint_1, _calc_Fint_2 *)
Definition p_Fint (o : nat) (first : bool) : prog (nd xr) :=
  one t0 <- m_ang o T0 ;; one p0 <- m_ang o P0 ;; one tex <- m_ang o TEx ;; one pex <- m_ang o PEx ;;
  one r <- get_obj o ;;
  one kw <- gets (fun h => params_nd h r) ;;
  one args <- lift (broadcast_arrays
     ((if first then [t0; p0; tex; pex] else [tex; pex; t0; p0]) ++ dvals kw)) ;;
  sub c <- p_fnevals o ;;
  match c with
  | None => pfail TypeError
  | Some c =>
      one fns <- lift (call c args []) ;;
      one mux <- (if first then mu_0_x o else mu_ex_x o) ;;
      one mu <- (if first then mu_0 o else mu_ex o) ;;
      sub tau <- p_param_val o Tau ;;
      one n <- m_nmax o ;;
      atom (lift (k_Fint n fns mux mu tau))
  end.
(** _calc.py:688-703 _interaction *)
Definition p_interaction (o : nat) : prog (nd xr) :=
  sub f1 <- p_Fint o true ;; sub f2 <- p_Fint o false ;;
  one i0 <- get_I0 o ;; one mu0 <- mu_0 o ;; sub om <- p_param_val o Omega ;;
  sub tau <- p_param_val o Tau ;; one muex <- mu_ex o ;;
  sub norm <- p_param_val o NormBRDF ;; sub bsf <- p_param_val o Bsf ;;
  atom (lift (k_interaction i0 mu0 muex om tau norm bsf f1 f2)).
(** _calc.py:714-730 _convert_sig0_db *)
Definition p_convert (o : nat) (val : nd xr) : prog (nd xr) :=
  one r <- get_obj o ;;
  if r_sig0 r then
    one mu0 <- mu_0 o ;; one i0 <- get_I0 o ;;
    atom (lift (k_convert true (r_dB r) i0 mu0 val))
  else atom (lift (k_convert false (r_dB r) (num 1) (num 1) val)).
(** _calc.py:732-741 _all_param_symbs *)
Definition p_symbs (o : nat) : prog (list string) :=
  one a <- get_param_symbs o Tau ;; one b <- get_param_symbs o Omega ;;
  one c <- get_param_symbs o NormBRDF ;; one d <- get_param_symbs o Bsf ;;
  pret (a ++ b ++ c ++ d).
(** _calc.py:486-583 calc *)
Definition p_calc_body (o : nat) : prog (nd xr) :=
  sub tv <- p_eval_param o Tau ;;
  one r <- get_obj o ;;
  let '(tau, is_num) := tv in
  sub parts <-
    (if is_num : bool then
       sub isurf <- p_surface o ;;
       if xgt0 (get tau []) then
         sub ivol <- p_volume o ;;
         sub iint <- (if r_intQ r then p_interaction o else pret (mk_nd [1] (fun _ => Fin 0%R))) ;;
         pret (isurf, ivol, Some iint)
       else pret (isurf, zeros_like isurf, Some (zeros_like isurf))
     else
       sub isurf <- p_surface o ;;
       sub ivol <- p_volume o ;;
       if r_intQ r then
         sub iint <- p_interaction o ;;
         sub tau' <- p_param_val o Tau ;;
         one iint <- lift (k_fix_nan iint tau') ;;
         pret (isurf, ivol, Some iint)
       else pret (isurf, ivol, None)) ;;
  let '(isurf, ivol, iint) := parts in
  one rows <- lift (k_rows isurf ivol (if r_intQ r then iint else None)) ;;
  p_convert o rows.
Definition p_calc (o : nat) (params : dict pyval) : prog (nd xr) :=
  pcatch (one _ <- update_params o params ;; p_calc_body o)
    (fun e =>
       match e with
       | TypeError | MissingParams _ =>
           sub ss <- p_symbs o ;;
           one r <- get_obj o ;;
           one symbs <- gets (fun h =>
             let* v := scat_at h (r_V r) in let* s := scat_at h (r_SRF r) in
             Ok (dedup_diff (ss ++ free_syms (phase_function v) ++ free_syms (phase_function s))
                            (angle_names ++ dkeys (r_params r)))) ;;
           match symbs with [] => pfail e | _ => pfail (MissingParams symbs) end
       | _ => pfail e
       end).
(** _calc.py:585-606 surface, 626-647 volume, 665-686 interaction *)
Definition p_api (eval : nat -> prog (nd xr)) (o : nat) (params : dict pyval) : prog (nd xr) :=
  one _ <- update_params o params ;; sub v <- eval o ;; p_convert o v.
(** _calc.py:1496-1597 jacobian *)
Fixpoint p_entries (o : nat) (norm : nd xr) (keys : list string) : prog (list (nd xr)) :=
  match keys with
  | [] => pret []
  | k :: keys' => one j <- jac_entry o norm k ;; sub js <- p_entries o norm keys' ;; pret (j :: js)
  end.
Definition p_jacobian (o : nat) (keys : list string) (format : string) : prog jac_out :=
  one norm <- jac_norm o ;;
  sub js <- p_entries o norm keys ;;
  if String.eqb format "list" then pret (JList js)
  else if String.eqb format "scipy_least_squares" then
    one r <- get_obj o ;;
    one rows <- gets (fun h => let* rows := all_rows h r (combine keys js) in vstack_T rows) ;;
    pret (JMatrix rows)
  else pfail TypeError.

(** one call from a thread; every call that is not listed is one step *)
Definition step_m (p : op) : M out := fun w => (fst (step w p), Ok (snd (step w p))).
Definition p_op (p : op) : prog out :=
  match p with
  | OCalc o kw => pout RetArr (p_calc o kw)
  | OSurface o kw => pout RetArr (p_api p_surface o kw)
  | OVolume o kw => pout RetArr (p_api p_volume o kw)
  | OInteraction o kw => pout RetArr (p_api p_interaction o kw)
  | OJacobian o keys f => pout RetJac (p_jacobian o keys f)
  | _ => atom (step_m p)
  end.
(** a thread: the calls it makes, one after the other; the result is the list of what they return *)
Fixpoint p_ops (ps : list op) : prog (list out) :=
  match ps with
  | [] => pret []
  | p :: ps' => sub x <- p_op p ;; sub xs <- p_ops ps' ;; pret (x :: xs)
  end.

(** [sched]: which thread makes the next step; a thread that has finished does nothing *)
Fixpoint interleaved (sched : list nat) (w : world) (ts : list (prog (list out))) : world * list (prog (list out)) :=
  match sched with
  | [] => (w, ts)
  | i :: sched' =>
      match nth_error ts i with
      | Some (@Act _ _ m k) => let '(w', r) := m w in interleaved sched' w' (list_set ts i (k r))
      | _ => interleaved sched' w ts
      end
  end.
(** what thread [i] has returned, once it has finished *)
Definition returned (ts : list (prog (list out))) (i : nat) : option (list out) :=
  match nth_error ts i with Some (Done (Ok xs)) => Some xs | _ => None end.

(** ** Undisturbed, the steps are the call *)
Fixpoint solo {A} (p : prog A) : M A :=
  match p with
  | Done r => fun w => (w, r)
  | @Act _ _ m k => fun w => solo (k (snd (m w))) (fst (m w))
  end.
Lemma solo_atom {A} (m : M A) w : solo (atom m) w = m w.
Proof. cbn. destruct (m w); reflexivity. Qed.
Lemma solo_bind {A B} (p : prog A) (k : A -> prog B) : forall w, solo (pbind p k) w = bind (solo p) (fun a => solo (k a)) w.
Proof. induction p as [[a|e]|C m f IH]; intros w; cbn; [reflexivity|reflexivity|]. now rewrite IH. Qed.
Lemma solo_catch {A} (p : prog A) (k : exn -> prog A) : forall w, solo (pcatch p k) w = catch (solo p) (fun a => solo (k a)) w.
Proof. induction p as [[a|e]|C m f IH]; intros w; cbn; [reflexivity|reflexivity|]. now rewrite IH. Qed.
Lemma solo_out {A} (f : A -> out) (p : prog A) : forall w, solo (pout f p) w = (fst (as_out f (solo p) w), Ok (snd (as_out f (solo p) w))).
Proof. induction p as [[a|e]|C m g IH]; intros w; cbn; [reflexivity|reflexivity|]. now rewrite IH. Qed.

Definition same {A} (p : prog A) (m : M A) : Prop := forall w, solo p w = m w.
Lemma sm_ret {A} (a : A) : same (pret a) (ret a). Proof. intros w. reflexivity. Qed.
Lemma sm_fail {A} e : same (@pfail A e) (fail e). Proof. intros w. reflexivity. Qed.
Lemma sm_atom {A} (m : M A) : same (atom m) m. Proof. intros w. apply solo_atom. Qed.
Lemma sm_bind {A B} (p : prog A) m (k : A -> prog B) k' : same p m -> (forall a, same (k a) (k' a)) -> same (pbind p k) (bind m k').
Proof. intros Hp Hk w. rewrite solo_bind. unfold bind. rewrite Hp. destruct (m w) as [w' [a|e]]; [apply Hk|reflexivity]. Qed.
Lemma sm_catch {A} (p : prog A) m (k : exn -> prog A) k' : same p m -> (forall a, same (k a) (k' a)) -> same (pcatch p k) (catch m k').
Proof. intros Hp Hk w. rewrite solo_catch. unfold catch. rewrite Hp. destruct (m w) as [w' [a|e]]; [reflexivity|apply Hk]. Qed.
Lemma sm_step {A} (m : M A) : same (pbind (atom m) pret) m.
Proof. intros w. rewrite solo_bind. unfold bind. rewrite solo_atom. destruct (m w) as [w' [a|e]]; reflexivity. Qed.
Create HintDb sm.
#[export] Hint Resolve sm_ret sm_fail sm_atom sm_step : sm.
Ltac smgo :=
  repeat first
    [ match goal with |- forall _, _ => intro end
    | solve [auto with sm]
    | match goal with
      | |- same (pbind _ _) (bind _ _) => apply sm_bind
      | |- same (pcatch _ _) (catch _ _) => apply sm_catch
      | |- same (let '(_, _) := ?p in _) _ => destruct p
      | |- same (match ?x with _ => _ end) (match ?x with _ => _ end) => destruct x
      | |- same (if ?x then _ else _) (if ?x then _ else _) => destruct x
      end ].
Lemma sm_eval o p : same (p_eval_param o p) (eval_param o p). Proof. unfold p_eval_param, eval_param. smgo. Qed.
#[export] Hint Resolve sm_eval : sm.
Lemma sm_val o p : same (p_param_val o p) (param_val o p). Proof. unfold p_param_val, param_val. smgo. Qed.
Lemma sm_scat o x : same (p_scat o x) (obj_scat_calc o x). 
Proof.
  unfold p_scat, obj_scat_calc, scat_calc. smgo.
Qed.
#[export] Hint Resolve sm_val sm_scat : sm.
Lemma sm_surface o : same (p_surface o) (m_surface o). Proof. unfold p_surface, m_surface. smgo. Qed.
Lemma sm_volume o : same (p_volume o) (m_volume o). Proof. unfold p_volume, m_volume. smgo. Qed.
Lemma sm_fn o : same (p_fn o) (m_fn o).
Proof.
  intros w. unfold p_fn, m_fn. rewrite solo_bind. unfold bind, solo, atom, get_obj, gets. cbn [fst snd].
  destruct (obj (w_heap w) o) as [r|e] eqn:Er; [|reflexivity]. destruct (r_fn r); [reflexivity|]. destruct (r_fn_input r); [reflexivity|].
  destruct (r_intQ r); [|reflexivity]. cbn [pbind fst snd]. match goal with |- context [match ?x with Ok _ => _ | Err _ => _ end] => destruct x as [f|e] end; [|reflexivity].
  cbn [pbind fst snd]. rewrite Er. reflexivity.
Qed.
#[export] Hint Resolve sm_fn : sm.
Lemma sm_fnevals o : same (p_fnevals o) (m_fnevals o).
Proof.
  unfold p_fnevals, m_fnevals. apply sm_bind; [smgo|intros r]. destruct (r_fnev r); [smgo|]. destruct (r_fnevals_input r); [smgo|]. destruct (r_intQ r); [|smgo].
  apply sm_bind; [smgo|intros [es|]; [|smgo]]. apply sm_bind; [smgo|intros c]. intros w. rewrite solo_bind. unfold bind at 1. rewrite solo_atom.
  unfold bind, get_obj, gets. destruct (obj (w_heap w) o); reflexivity.
Qed.
#[export] Hint Resolve sm_fnevals : sm.
Lemma sm_Fint o b : same (p_Fint o b) (m_Fint o b). Proof. unfold p_Fint, m_Fint. destruct b; smgo. Qed.
#[export] Hint Resolve sm_surface sm_volume sm_Fint : sm.
Lemma sm_interaction o : same (p_interaction o) (m_interaction o). Proof. unfold p_interaction, m_interaction. smgo. Qed.
Lemma sm_convert o v : same (p_convert o v) (m_convert o v). Proof. unfold p_convert, m_convert. smgo. Qed.
Lemma sm_symbs o : same (p_symbs o) (all_param_symbs o). Proof. unfold p_symbs, all_param_symbs. smgo. Qed.
#[export] Hint Resolve sm_interaction sm_convert sm_symbs : sm.
Lemma sm_body o : same (p_calc_body o) (m_calc_body o). Proof. unfold p_calc_body, m_calc_body. smgo. Qed.
#[export] Hint Resolve sm_body : sm.
Lemma sm_calc o kw : same (p_calc o kw) (m_calc o kw). Proof. unfold p_calc, m_calc. smgo. Qed.
Lemma sm_entries o n ks : same (p_entries o n ks) (jac_entries o n ks). Proof. induction ks; cbn [p_entries jac_entries]; smgo. Qed.
#[export] Hint Resolve sm_calc sm_entries : sm.
Lemma sm_jac o ks f : same (p_jacobian o ks f) (api_jacobian o ks f). Proof. unfold p_jacobian, api_jacobian. smgo. Qed.
Lemma sm_op p : same (p_op p) (step_m p).
Proof.
  assert (G : forall A (f : A -> out) (q : prog A) m p, same q m -> (forall w, step w p = as_out f m w) -> same (pout f q) (step_m p)).
  { intros A f q m p0 H E w. rewrite solo_out. unfold step_m, as_out. rewrite E. unfold as_out. rewrite H. reflexivity. }
  destruct p; cbn [p_op]; try apply sm_atom; (eapply G; [|intros w; reflexivity]); [smgo|..|apply sm_jac].
  - unfold p_api, api_surface. smgo.
  - unfold p_api, api_volume. smgo.
  - unfold p_api, api_interaction. smgo.
Qed.
Lemma solo_ops ps : forall w, solo (p_ops ps) w = (fst (run w ps), Ok (snd (run w ps))).
Proof.
  induction ps as [|p ps IH]; intros w; [reflexivity|]. cbn [p_ops]. rewrite solo_bind. unfold bind. rewrite sm_op. unfold step_m at 1.
  rewrite solo_bind. unfold bind. rewrite IH. cbn [run]. destruct (step w p) as [w1 x]. cbn [fst snd]. destruct (run w1 ps) as [w2 xs]. reflexivity.
Qed.
