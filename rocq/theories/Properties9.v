(** Parameter definitions and their evaluation: C06, C55. *)
From Verif Require Export Properties1 ParamRead.
Open Scope string_scope.
Open Scope nat_scope.
Open Scope list_scope.

(** *** C06.  Reading tau, omega, NormBRDF or bsf after any history.
    [latest_def o p d ps] is the definition assigned last to [p] of object [o] in [ps] ([d] if none);
    [evaluates pd e x] says that [x] is the outcome of evaluating [e] with the current parameter values
    [pd]: the array of its values, a ValueError if the shapes do not broadcast, or, if parameters are
    missing, a TypeError naming exactly those (ParamRead.v).
    [seng]: symengine is installed.  The second alternative covers installations without symengine,
    the first excludes only expressions without any symbol (symengine functions without arguments
    are not modelled). *)
Theorem C06_latest_definition : forall seng on qs V SRF iq sg db fi fe i0 o ps p pd,
  let new := ONew V SRF iq sg db fi fe i0 in
  let w0 := fst (run (init seng on) qs) in
  let w := fst (run (fst (step w0 new)) ps) in
  snd (step w0 new) = RetId o ->
  snd (step w (OParamDict o)) = RetDict pd ->
  match latest_def o p (DStr (ESym (pname_str p))) ps with
  | DVal v => snd (step w (OReadParam o p)) = match deref (w_heap w) v with Ok a => RetArr a | Err e => Raised e end
  | DStr e => (seng = true /\ syms e <> [] \/ seng = false /\ snd (step w OGetBackend) = RetStr "sympy") ->
              evaluates pd e (snd (step w (OReadParam o p)))
  | DSym _ => True
  end.
Proof.
  intros seng on qs V SRF iq sg db fi fe i0 o ps p pd new w0 w Hnew Hpd.
  destruct (new_default w0 V SRF iq sg db fi fe i0 o Hnew) as (r0 & Hr0 & Hd0). fold new in Hr0.
  destruct (run_def ps _ o r0 p Hr0) as (r & Hr & Hd). fold w in Hr. rewrite Hd0 in Hd.
  assert (P : PC w) by (apply run_PC, step_PC, run_PC, PC_init).
  assert (Sg : h_seng (w_heap w) = seng) by (unfold w; rewrite run_seng, step_seng; unfold w0; now rewrite run_seng).
  destruct (step_pdict _ _ _ Hpd) as (r' & Hr' & Hp). assert (r' = r) by congruence. subst r'.
  destruct (latest_def o p _ ps) as [e|e|v] eqn:Ed; [|exact I|].
  - intros U. eapply read_str; try eassumption. rewrite Sg. destruct U as [U|[U B]]; [now left|right]. split; [exact U|].
    cbn [step] in B. unfold as_out, gets in B. cbn [snd] in B. injection B as B. destruct (h_be (w_heap w)); [reflexivity|discriminate].
  - eapply read_val; eassumption.
Qed.
Print Assumptions C06_latest_definition.

Corollary C06_string_definition : forall seng on qs V SRF iq sg db fi fe i0 o ps p pd e w0 w,
  w0 = fst (run (init seng on) qs) ->
  w = fst (run (fst (step w0 (ONew V SRF iq sg db fi fe i0))) ps) ->
  snd (step w0 (ONew V SRF iq sg db fi fe i0)) = RetId o ->
  snd (step w (OParamDict o)) = RetDict pd ->
  latest_def o p (DStr (ESym (pname_str p))) ps = DStr e ->
  (seng = true /\ syms e <> [] \/ seng = false /\ snd (step w OGetBackend) = RetStr "sympy") ->
  evaluates pd e (snd (step w (OReadParam o p))).
Proof.
  intros seng on qs V SRF iq sg db fi fe i0 o ps p pd e w0 w -> -> H1 H2 Hd.
  pose proof (C06_latest_definition seng on qs V SRF iq sg db fi fe i0 o ps p pd H1 H2) as X. cbn zeta in X. rewrite Hd in X. exact X.
Qed.
Print Assumptions C06_string_definition.

(** evaluations in between do not matter: [tau] is defined as "2*v" after having been evaluated as
    "tau", evaluated, and then read with the latest v *)
Definition e_2v : expr := EMul (ENum 2) (ESym "v").
Definition ps_06 : list op :=
  [OUpdate 0 [("tau", PNum (Fin 7)); ("v", PNum (Fin 1))]; OReadParam 0 Tau; OSetDef 0 Tau (DStr e_2v); OReadParam 0 Tau;
   OUpdate 0 [("v", PNum (Fin 3))]].
Definition pd_06 : dict (nd xr) := [("bsf", scalar (Fin 0)); ("tau", mk_nd [1] (fun _ => Fin 7)); ("v", mk_nd [1] (fun _ => Fin 3))].
Definition new_06 : op := ONew (Some 0) (Some 1) true false false None None (PNum (Fin 1)).
Example C06_nonvacuous :
  let w0 := fst (run (init true true) (firstn 2 hist0)) in
  let w := fst (run (fst (step w0 new_06)) ps_06) in
  snd (step w0 new_06) = RetId 0 /\ snd (step w (OParamDict 0)) = RetDict pd_06 /\
  latest_def 0 Tau (DStr (ESym "tau")) ps_06 = DStr e_2v /\
  exists a, snd (step w (OReadParam 0 Tau)) = RetArr a /\ shp a = [1] /\ bget a [0] = xmul (Fin (Q2R 2)) (Fin 3).
Proof.
  assert (H1 : snd (step (fst (run (init true true) (firstn 2 hist0))) new_06) = RetId 0) by (vm_compute; reflexivity).
  assert (H2 : snd (step (fst (run (fst (step (fst (run (init true true) (firstn 2 hist0))) new_06)) ps_06)) (OParamDict 0)) = RetDict pd_06)
    by (vm_compute; reflexivity).
  assert (H3 : latest_def 0 Tau (DStr (ESym "tau")) ps_06 = DStr e_2v) by reflexivity.
  assert (U : true = true /\ syms e_2v <> [] \/ true = false /\
    snd (step (fst (run (fst (step (fst (run (init true true) (firstn 2 hist0))) new_06)) ps_06)) OGetBackend) = RetStr "sympy")
    by (left; split; [reflexivity|discriminate]).
  destruct (C06_string_definition true true (firstn 2 hist0) (Some 0) (Some 1) true false false None None (PNum (Fin 1)) 0 ps_06 Tau pd_06 e_2v
    _ _ eq_refl eq_refl H1 H2 H3 U) as [_ X].
  cbn zeta. split; [exact H1|]. split; [exact H2|]. split; [exact H3|].
  destruct X as (a & Ha & Hs & Hv); [intros k [<-|[]]; vm_compute; auto|]. exists a. split; [exact Ha|]. split; [exact Hs|]. rewrite Hv. reflexivity.
Qed.

(** *** C55.  A definition given as a sympy expression behaves like the same expression given as a
    string: this is violated.  The symbols of a sympy object are never determined, so reading a
    definition with symbols always fails, although every parameter is given. *)
Theorem C55_sympy_definition_like_string_refuted :
  exists ps pd e, let w := fst (run (init true true) ps) in
    snd (step w (OParamDict 0)) = RetDict pd /\ latest_def 0 Tau (DStr (ESym "tau")) ps = DSym e /\
    (forall k, In k (syms e) -> In k (dkeys pd)) /\
    snd (step w (OReadParam 0 Tau)) = Raised RuntimeError /\ ~ evaluates pd e (snd (step w (OReadParam 0 Tau))).
Proof.
  exists (hist0 ++ [OUpdate 0 [("v", PNum (Fin 1))]; OSetDef 0 Tau (DSym (ESym "v"))]). eexists. exists (ESym "v"). cbn zeta.
  split; [reflexivity|]. split; [reflexivity|].
  assert (K : forall k, In k (syms (ESym "v")) -> In k (dkeys [("bsf", scalar (Fin 0)); ("v", mk_nd [1] (fun _ => Fin 1))])).
  { intros k [<-|[]]. right. now left. }
  split; [exact K|]. split; [reflexivity|]. intros [_ X]. specialize (X K). destruct X as (a & X & _). discriminate X.
Qed.
Print Assumptions C55_sympy_definition_like_string_refuted.

(** the general behaviour: reading fails whatever the history, the installation and the parameters *)
Theorem C55_sympy_definition_partial : forall seng on qs V SRF iq sg db fi fe i0 o ps p e,
  let new := ONew V SRF iq sg db fi fe i0 in
  let w0 := fst (run (init seng on) qs) in
  let w := fst (run (fst (step w0 new)) ps) in
  snd (step w0 new) = RetId o ->
  latest_def o p (DStr (ESym (pname_str p))) ps = DSym e -> syms e <> [] ->
  exists x, snd (step w (OReadParam o p)) = Raised x.
Proof.
  intros seng on qs V SRF iq sg db fi fe i0 o ps p e new w0 w Hnew Hd N.
  destruct (new_default w0 V SRF iq sg db fi fe i0 o Hnew) as (r0 & Hr0 & Hd0). fold new in Hr0.
  destruct (run_def ps _ o r0 p Hr0) as (r & Hr & E). fold w in Hr. rewrite Hd0, Hd in E.
  assert (P : PC w) by (apply run_PC, step_PC, run_PC, PC_init).
  rewrite read_step.
  destruct (funcs_val o p w r P Hr) as (w' & P' & Hh & [(f & Hf & F)|(er & Hf & F)]).
  - rewrite E in F. cbn [fun_of dsyms] in F. destruct F as (be & c & -> & L). apply lambdify_Ok in L. destruct L as (-> & _ & L).
    assert (NS : subset_b (all_syms [e]) [] = false).
    { unfold all_syms. cbn [flat_map]. rewrite app_nil_r. destruct (syms e) as [|x l]; [congruence|reflexivity]. }
    destruct be; [|destruct (L eq_refl); congruence].
    unfold param_val, eval_param, bind at 1. unfold bind at 1. rewrite Hf.
    pose proof (symbs_val o p w' r P') as SV. rewrite Hh in SV. specialize (SV Hr). unfold bind at 1.
    pose proof (symbs_heap o p w') as SH.
    destruct (get_param_symbs o p w') as [w2 x]. cbn [snd fst] in SV, SH. subst x. rewrite E. cbn [dsyms].
    assert (Hr2 : obj (w_heap w2) o = Ok r) by congruence. rewrite (bind_get o r _ w2 Hr2).
    cbn [rmap rbind]. unfold call1, call. cbn [c_be c_vars c_exprs]. rewrite NS. cbn. eauto.
  - unfold param_val, eval_param, bind at 1. unfold bind at 1. rewrite Hf. cbn [snd]. eauto.
Qed.
Print Assumptions C55_sympy_definition_partial.
