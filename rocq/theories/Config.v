(** The calls that configure an object, step by step (each assignment and each cache_clear is one step). *)
From Coq Require Import FunctionalExtensionality.
From Verif Require Import Stale.
From Verif Require Export Threads.
Open Scope string_scope.
Open Scope nat_scope.
Open Scope list_scope.

(** self.attr = value *)
Definition upd (o : nat) (f : rt1 -> rt1) : M unit := do r <- get_obj o ;; put_obj o (f r).
(** _calc.py:170-172 _clear_geom_cache *)
Definition c_clear_geom {A} (k : prog A) : prog A :=
  one _ <- cache_clear CMu0 ;; one _ <- cache_clear CMu0x ;; one _ <- cache_clear CMuEx ;; one _ <- cache_clear CMuExx ;; k.
(** _calc.py:318-352 set_monostatic *)
Definition c_monostatic (o : nat) (p_0 : option fixarg) : prog unit :=
  one _ <- upd o (fun r => with_mode r true) ;;
  c_clear_geom (
  one _ <- upd o (fun r => with_fixed r []) ;;
  one _ <- upd o (fun r => with_fn r None) ;;
  one _ <- upd o (fun r => with_fnev r None) ;;
  match p_0 with
  | Some FBad => pfail AssertionError
  | Some (FNum q) =>
      one _ <- upd o (fun r => with_ang r P0 (PNum (Fin (Q2R q)))) ;;
      one _ <- upd o (fun r => with_fixed r (P0 :: r_fixed r)) ;;
      atom (upd o (fun r => with_geom r (mk_angs (ang_sym T0) (ang_sym T0) (ENum q) (ENum q))))
  | None => atom (upd o (fun r => with_geom r (mk_angs (ang_sym T0) (ang_sym T0) (ang_sym P0) (ang_sym P0))))
  end).
(** _calc.py:383-394: one iteration of the loop of set_bistatic *)
Definition c_bistep (o : nat) (a : angle) (v : option fixarg) : prog expr :=
  match v with
  | None => pret (ang_sym a)
  | Some FBad => pfail AssertionError
  | Some (FNum q) =>
      one _ <- upd o (fun r => with_ang r a (PNum (Fin (Q2R q)))) ;;
      one _ <- upd o (fun r => with_fixed r (a :: r_fixed r)) ;;
      pret (ENum q)
  end.
(** _calc.py:354-396 set_bistatic *)
Definition c_bistatic (o : nat) (t_0 t_ex p_0 p_ex : option fixarg) : prog unit :=
  one _ <- upd o (fun r => with_mode r false) ;;
  c_clear_geom (
  one _ <- upd o (fun r => with_fixed r []) ;;
  one _ <- upd o (fun r => with_fn r None) ;;
  one _ <- upd o (fun r => with_fnev r None) ;;
  sub e0 <- c_bistep o T0 t_0 ;; sub e1 <- c_bistep o TEx t_ex ;;
  sub e2 <- c_bistep o P0 p_0 ;; sub e3 <- c_bistep o PEx p_ex ;;
  atom (upd o (fun r => with_geom r (mk_angs e0 e1 e2 e3)))).
(** _calc.py:444-445 the loop of set_geometry *)
Fixpoint c_loop (o : nat) (kw : list (angle * option pyval)) : prog unit :=
  match kw with
  | [] => pret tt
  | (a, v) :: kw' =>
      one r <- get_obj o ;;
      if existsb (angle_eqb a) (r_fixed r) then pfail AssertionError
      else match v with
           | None => pfail AssertionError
           | Some x => one _ <- upd o (fun r => with_ang r a x) ;; c_loop o kw'
           end
  end.
(** _calc.py:403-445 set_geometry *)
Definition c_geometry (o : nat) (kw : dict (option pyval)) : prog unit :=
  match rmap (fun kv => opt_res (option_map (fun a => (a, snd kv)) (angle_of_str (fst kv))) TypeError) kw with
  | Err e => pfail e
  | Ok akw =>
      one r <- get_obj o ;;
      if existsb (fun av => angle_eqb TEx (fst av) || angle_eqb PEx (fst av)) akw && r_mono r
      then pfail AssertionError
      else c_clear_geom (c_loop o akw)
  end.
(** _calc.py:222-260 the setters of NormBRDF, tau, omega, bsf *)
Definition c_def (o : nat) (p : pname) (d : pdef) : prog unit :=
  one _ <- cache_clear CPFuncs ;; one _ <- cache_clear CPSymbs ;; atom (upd o (fun r => with_def r p d)).
(** one call, every assignment a step *)
Definition c_op (p : op) : prog out :=
  match p with
  | OSetMono o p0 => pout none_of (c_monostatic o p0)
  | OSetBi o a b c d => pout none_of (c_bistatic o a b c d)
  | OSetGeometry o kw => pout none_of (c_geometry o kw)
  | OSetDef o p d => pout none_of (c_def o p d)
  | _ => p_op p
  end.

(** ** Undisturbed, the steps are the call *)
Lemma put_put o r r' w : fst (put_obj o r' (fst (put_obj o r w))) = fst (put_obj o r' w).
Proof. unfold put_obj. cbn [fst set_heap w_heap w_on w_caches set_objs h_objs]. rewrite list_set_twice. reflexivity. Qed.
Lemma put_get o r r' w : obj (w_heap w) o = Ok r -> obj (w_heap (fst (put_obj o r' w))) o = Ok r'.
Proof. intros H. apply obj_nth in H. apply obj_nth. cbn. eapply nth_error_list_set_same; exact H. Qed.
Lemma upd_put o f w r : obj (w_heap w) o = Ok r -> upd o f w = (fst (put_obj o (f r) w), Ok tt).
Proof. intros H. unfold upd, bind, get_obj, gets. rewrite H. reflexivity. Qed.
Lemma upd_upd o f w r r' : obj (w_heap w) o = Ok r' -> upd o f (fst (put_obj o r w)) = (fst (put_obj o (f r) w), Ok tt).
Proof. intros H. rewrite (upd_put o f _ r (put_get _ _ _ _ H)), put_put. reflexivity. Qed.
Lemma put_self o r w : obj (w_heap w) o = Ok r -> fst (put_obj o r w) = w.
Proof. intros H. apply obj_nth in H. unfold put_obj. cbn. rewrite (list_set_self _ _ _ H). destruct w as [[] ? ?]; reflexivity. Qed.
Lemma bind_upd {B} o f (k : unit -> M B) w r : obj (w_heap w) o = Ok r -> bind (upd o f) k w = k tt (fst (put_obj o (f r) w)).
Proof. intros H. unfold bind. now rewrite (upd_put _ _ _ _ H). Qed.
Lemma bind_upd2 {B} o f (k : unit -> M B) w r r' : obj (w_heap w) o = Ok r' -> bind (upd o f) k (fst (put_obj o r w)) = k tt (fst (put_obj o (f r) w)).
Proof. intros H. unfold bind. now rewrite (upd_upd _ _ _ _ _ H). Qed.
Lemma solo_one {A B} (m : M A) (k : A -> prog B) w : solo (pbind (atom m) k) w = bind m (fun a => solo (k a)) w.
Proof. rewrite solo_bind. unfold bind. now rewrite solo_atom. Qed.
(** the world after the four cache_clear *)
Definition cleared_w (w : world) : world := fst (clear_geom_cache w).
Lemma cw_obj w o : obj (w_heap (cleared_w w)) o = obj (w_heap w) o. Proof. reflexivity. Qed.
Lemma solo_clear {A} (k : prog A) w : solo (c_clear_geom k) w = solo k (cleared_w w).
Proof. reflexivity. Qed.
Lemma cw_put o r w : cleared_w (fst (put_obj o r w)) = fst (put_obj o r (cleared_w w)). Proof. reflexivity. Qed.
Lemma upd_err o f w e : obj (w_heap w) o = Err e -> upd o f w = (w, Err e).
Proof. intros H. unfold upd, bind, get_obj, gets. now rewrite H. Qed.
Lemma put_eq {A} (a : A) o r w : (fst (put_obj o r w), Ok a) = (fst (put_obj o r w), Ok a). Proof. reflexivity. Qed.
Definition rst (r : rt1) (m : bool) : rt1 := with_fnev (with_fn (with_fixed (with_mode r m) []) None) None.
Lemma sc_mono o p0 : same (c_monostatic o p0) (set_monostatic o p0).
Proof.
  intros w. unfold c_monostatic, set_monostatic. rewrite solo_one. destruct (obj (w_heap w) o) as [r|e] eqn:Hr.
  2:{ unfold bind. rewrite (upd_err _ _ _ _ Hr). cbn. now rewrite Hr. }
  rewrite (bind_upd _ _ _ _ _ Hr), solo_clear, cw_put. rewrite (bind_get o r _ _ Hr), put_clear, clear_then, bind_put. fold (cleared_w w).
  rewrite <- cw_obj in Hr. generalize dependent (cleared_w w). clear w. intros w Hr.
  rewrite (bind_get o (with_mode r true)) by (eapply put_get; exact Hr). cbv zeta. rewrite bind_put, put_put. fold (rst r true).
  rewrite !solo_one, !(bind_upd2 _ _ _ _ _ _ Hr). rewrite !solo_one, !(bind_upd2 _ _ _ _ _ _ Hr). rewrite !solo_one, !(bind_upd2 _ _ _ _ _ _ Hr). fold (rst r true).
  destruct p0 as [[q|]|].
  - rewrite !solo_one, !(bind_upd2 _ _ _ _ _ _ Hr), !solo_one, !(bind_upd2 _ _ _ _ _ _ Hr), solo_atom, (upd_upd _ _ _ _ _ Hr).
    unfold put_obj. cbn [fst set_heap w_heap w_on w_caches set_objs h_objs]. rewrite !list_set_twice. reflexivity.
  - reflexivity.
  - rewrite solo_atom, (upd_upd _ _ _ _ _ Hr). unfold put_obj. cbn [fst set_heap w_heap w_on w_caches set_objs h_objs]. rewrite !list_set_twice. reflexivity.
Qed.
Lemma sc_bistep o a v w r : obj (w_heap w) o = Ok r -> solo (c_bistep o a v) w = bistatic_step o a v w.
Proof.
  intros Hr. unfold c_bistep, bistatic_step. destruct v as [[q|]|]; [|reflexivity|reflexivity].
  rewrite solo_one, (bind_upd _ _ _ _ _ Hr), solo_one, (bind_upd2 _ _ _ _ _ _ Hr), (bind_get o r _ _ Hr). reflexivity.
Qed.
Lemma bistep_obj o a v w r : obj (w_heap w) o = Ok r -> exists r', obj (w_heap (fst (bistatic_step o a v w))) o = Ok r'.
Proof.
  intros Hr. unfold bistatic_step. destruct v as [[q|]|]; try (exists r; exact Hr). rewrite (bind_get o r _ _ Hr). cbv zeta. rewrite bind_put. cbn [ret fst]. eexists. eapply put_get; exact Hr.
Qed.
Lemma sc_bistatic o a b c d : same (c_bistatic o a b c d) (set_bistatic o a b c d).
Proof.
  intros w. unfold c_bistatic, set_bistatic. rewrite solo_one. destruct (obj (w_heap w) o) as [r|e] eqn:Hr.
  2:{ unfold bind. rewrite (upd_err _ _ _ _ Hr). cbn. now rewrite Hr. }
  rewrite (bind_upd _ _ _ _ _ Hr), solo_clear, cw_put. rewrite (bind_get o r _ _ Hr), put_clear, clear_then, bind_put. fold (cleared_w w).
  rewrite <- cw_obj in Hr. generalize dependent (cleared_w w). clear w. intros w Hr.
  rewrite (bind_get o (with_mode r false)) by (eapply put_get; exact Hr). rewrite bind_put, put_put. fold (rst r false).
  rewrite !solo_one, !(bind_upd2 _ _ _ _ _ _ Hr). rewrite !solo_one, !(bind_upd2 _ _ _ _ _ _ Hr). rewrite !solo_one, !(bind_upd2 _ _ _ _ _ _ Hr). fold (rst r false).
  pose proof (put_get o r (rst r false) w Hr) as Hr1. generalize dependent (rst r false). intros r1. generalize (fst (put_obj o r1 w)). clear w r Hr. intros w Hr.
  assert (G : forall x v (k : expr -> prog unit) (k' : expr -> M unit) w r, obj (w_heap w) o = Ok r -> (forall e w r, obj (w_heap w) o = Ok r -> solo (k e) w = k' e w) ->
     solo (pbind (c_bistep o x v) k) w = bind (bistatic_step o x v) k' w).
  { intros x v k k' w0 r0 H0 Hk. rewrite solo_bind. unfold bind. rewrite (sc_bistep o x v w0 r0 H0). destruct (bistep_obj o x v w0 r0 H0) as [r' Hr'].
    destruct (bistatic_step o x v w0) as [w2 [e|e]]; [|reflexivity]. exact (Hk e w2 r' Hr'). }
  eapply G; [exact Hr|intros e0 w0 r0 H0]. eapply G; [exact H0|intros e1 w1 r2 H1]. eapply G; [exact H1|intros e2 w2 r3 H2]. eapply G; [exact H2|intros e3 w3 r4 H3].
  rewrite solo_atom. reflexivity.
Qed.
Lemma sc_loop o kw : same (c_loop o kw) (set_geometry_loop o kw).
Proof.
  induction kw as [|[a v] kw IH]; intros w; [reflexivity|]. cbn [c_loop set_geometry_loop]. rewrite solo_one. destruct (obj (w_heap w) o) as [r|e] eqn:Hr.
  2:{ unfold bind, get_obj, gets. now rewrite Hr. }
  rewrite !(bind_get o r _ _ Hr). destruct (existsb _ _); [reflexivity|]. destruct v as [x|]; [|reflexivity]. rewrite solo_one, (bind_upd _ _ _ _ _ Hr), bind_put. apply IH.
Qed.
Lemma sc_geometry o kw : same (c_geometry o kw) (set_geometry o kw).
Proof.
  intros w. unfold c_geometry, set_geometry. destruct (rmap _ kw) as [akw|e]; [|reflexivity]. rewrite solo_one. destruct (obj (w_heap w) o) as [r|e] eqn:Hr.
  2:{ unfold bind, get_obj, gets. now rewrite Hr. }
  rewrite !(bind_get o r _ _ Hr). destruct (_ && _); [reflexivity|]. rewrite solo_clear, clear_then. apply sc_loop.
Qed.
Lemma sc_op p : same (c_op p) (step_m p).
Proof.
  assert (G : forall A (f : A -> out) (q : prog A) m p, same q m -> (forall w, step w p = as_out f m w) -> same (pout f q) (step_m p)).
  { intros A f q m p0 H E w. rewrite solo_out. unfold step_m, as_out. rewrite E. unfold as_out. rewrite H. reflexivity. }
  destruct p; cbn [c_op]; try apply sm_op; (eapply G; [|intros w; reflexivity]); [apply sc_geometry|apply sc_mono|apply sc_bistatic|].
  intros w. unfold c_def, set_def.
  transitivity (solo (atom (upd o (fun r => with_def r p d))) (fst (clear_param_cache w))); [reflexivity|]. rewrite solo_atom. reflexivity.
Qed.
Print Assumptions sc_op.
