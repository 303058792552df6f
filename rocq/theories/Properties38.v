(** C101: threads that share an object. *)
From Verif Require Import Stable Properties14 Properties15 Properties37.
From Coq Require Import Reals Lra Lia.
Open Scope string_scope.
Open Scope nat_scope.
Open Scope list_scope.

(** ** Programs that only read *)
Definition okr {A} (J : list nat) (h : heap) (m : M A) : Prop :=
  (forall wc uc, Sim J wc uc -> w_heap wc = h -> simAt J m wc uc) /\ stab h m.
Fixpoint genr {A} (J : list nat) (h : heap) (p : prog A) : Prop :=
  match p with Done _ => True | @Act _ _ m k => okr J h m /\ forall r, snd (m (bare h)) = r -> genr J h (k r) end.
Lemma gr_bind {A B} J h (p : prog A) (k : A -> prog B) : genr J h p -> (forall a, genr J h (k a)) -> genr J h (pbind p k).
Proof. intros Hp Hk. induction p as [[a|e]|C m f IH]; cbn in *; auto. destruct Hp as [H1 H2]. split; auto. Qed.
Lemma gr_catch {A} J h (p : prog A) (k : exn -> prog A) : genr J h p -> (forall a, genr J h (k a)) -> genr J h (pcatch p k).
Proof. intros Hp Hk. induction p as [[a|e]|C m f IH]; cbn in *; auto. destruct Hp as [H1 H2]. split; auto. Qed.
Lemma gr_out {A} J h (f : A -> out) (p : prog A) : genr J h p -> genr J h (pout f p).
Proof. intros Hp. induction p as [[a|e]|C m g IH]; cbn in *; auto. destruct Hp as [H1 H2]. split; auto. Qed.
Lemma gr_ret {A} J h (a : A) : genr J h (pret a). Proof. exact I. Qed.
Lemma gr_fail {A} J h e : genr J h (@pfail A e). Proof. exact I. Qed.
Lemma gr_atom {A} J h (m : M A) : simM J m -> stab h m -> genr J h (atom m).
Proof. intros H1 H2. split; [split; [intros wc uc HS _; now apply H1|exact H2]|intros r _; exact I]. Qed.
Lemma gr_get {B} J h o (k : rt1 -> prog B) : (forall r, obj h o = Ok r -> genr J h (k r)) -> genr J h (pbind (atom (get_obj o)) k).
Proof.
  intros Hk. split; [split; [intros wc uc HS _; now apply sim_get_obj|apply st_get_obj]|]. intros r Er. cbn in Er. subst r. cbn.
  destruct (obj h o) as [r|e] eqn:E; [now apply Hk|exact I].
Qed.
Create HintDb gr.
#[export] Hint Resolve gr_ret gr_fail : gr.
Ltac grgo :=
  repeat first
    [ match goal with |- forall _, _ => intro end
    | solve [auto with gr]
    | match goal with
      | |- genr _ _ (pbind _ _) => apply gr_bind
      | |- genr _ _ (pcatch _ _) => apply gr_catch
      | |- genr _ _ (atom _) => apply gr_atom; [solve [simgo]|solve [stgo]]
      | |- genr _ _ (let '(_, _) := ?p in _) => destruct p
      | |- genr _ _ (match ?x with _ => _ end) => destruct x
      | |- genr _ _ (if ?x then _ else _) => destruct x
      end ].
Section Reading.
  Context (J : list nat) (h : heap) (o : nat).
  Hypothesis Hq : quiet h o.
  Hypothesis HBh : HB h.
  Hypothesis HoJ : In o J.
  Lemma gr_eval p : genr J h (p_eval_param o p). Proof. unfold p_eval_param. grgo. Qed.
  Local Hint Resolve gr_eval : gr.
  Lemma gr_val p : genr J h (p_param_val o p). Proof. unfold p_param_val. grgo. Qed.
  Lemma gr_scat x : genr J h (p_scat o x). Proof. unfold p_scat. grgo. Qed.
  Local Hint Resolve gr_val gr_scat : gr.
  Lemma gr_surface : genr J h (p_surface o). Proof. unfold p_surface. grgo. Qed.
  Lemma gr_volume : genr J h (p_volume o). Proof. unfold p_volume. grgo. Qed.
  Lemma gr_fnevals : genr J h (p_fnevals o).
  Proof.
    unfold p_fnevals. apply gr_get. intros r Hr. specialize (Hq r Hr).
    destruct (r_fnev r); [grgo|]. destruct (r_fnevals_input r); [grgo|]. destruct (r_intQ r); [|grgo]. exfalso. intuition congruence.
  Qed.
  Local Hint Resolve gr_fnevals : gr.
  Lemma gr_Fint f : genr J h (p_Fint o f). Proof. unfold p_Fint. destruct f; grgo. Qed.
  Local Hint Resolve gr_surface gr_volume gr_Fint : gr.
  Lemma gr_interaction : genr J h (p_interaction o). Proof. unfold p_interaction. grgo. Qed.
  Lemma gr_convert v : genr J h (p_convert o v). Proof. unfold p_convert. grgo. Qed.
  Lemma gr_symbs : genr J h (p_symbs o). Proof. unfold p_symbs. grgo. Qed.
  Local Hint Resolve gr_interaction gr_convert gr_symbs : gr.
  Lemma gr_body : genr J h (p_calc_body o). Proof. unfold p_calc_body. grgo. Qed.
  Local Hint Resolve gr_body : gr.
  Lemma gr_update : genr J h (atom (update_params o [])).
  Proof.
    split; [|intros r _; exact I]. split; [|now apply st_update]. intros wc uc HS E. apply sim_update; [exact HS|now rewrite E|]. intros _ r _ x [].
  Qed.
  Local Hint Resolve gr_update : gr.
  Lemma gr_entries n ks : genr J h (p_entries o n ks).
  Proof.
    induction ks as [|k ks IH]; cbn [p_entries]; [exact I|]. apply gr_bind; [apply gr_atom; [now apply sim_jac_entry|stgo]|]. grgo.
  Qed.
  Local Hint Resolve gr_entries : gr.
  Lemma gr_jac ks f : genr J h (p_jacobian o ks f). Proof. unfold p_jacobian. grgo. Qed.
  (** calls that evaluate the object and change nothing *)
  Definition only_reads (p : op) : bool :=
    match p with
    | OCalc _ [] | OSurface _ [] | OVolume _ [] | OInteraction _ [] | OJacobian _ _ _
    | OReadAngle _ _ | OReadParam _ _ | OParamDict _ | OSymbs _ => true
    | _ => false
    end.
  Lemma gr_op p : only_reads p = true -> uses o p = true -> genr J h (p_op p).
  Proof.
    assert (G : forall A (f : A -> out) (m : M A) q, (forall w, step w q = as_out f m w) -> simM J m -> stab h m -> genr J h (atom (step_m q))).
    { intros A f m q E H1 [x H2]. split; [|intros r _; exact I]. split.
      - intros wc uc HS _. unfold simAt, step_m. cbn [fst snd]. rewrite !E. destruct (as_out_sim J f m wc uc (H1 wc uc HS)) as [A1 A2]. rewrite A1. split; [reflexivity|exact A2].
      - exists (Ok (match x with Ok a => f a | Err e => Raised e end)). intros u U1 U2. unfold step_m. cbn [fst snd]. rewrite !E, fst_as_out, snd_as_out.
        destruct (H2 u U1 U2) as (B1 & B2 & B3). rewrite B3. auto. }
    intros R U. destruct p; cbn in R, U; try discriminate R; try (destruct kw as [|]; [|discriminate R]); apply Nat.eqb_eq in U; subst; cbn [p_op].
    - eapply G; [intros; reflexivity|simgo|stgo].
    - eapply G; [intros; reflexivity|simgo|stgo].
    - apply gr_out. unfold p_calc. apply gr_catch; [grgo|]. intros e. destruct e; grgo.
    - apply gr_out. unfold p_api. grgo.
    - apply gr_out. unfold p_api. grgo.
    - apply gr_out. unfold p_api. grgo.
    - apply gr_out, gr_jac.
    - eapply G; [intros; reflexivity|simgo|stgo].
    - eapply G; [intros; reflexivity|simgo|stgo].
  Qed.
End Reading.

(** ** All threads together *)
Fixpoint ro {A} (J : list nat) (h : heap) (Q : res A -> Prop) (n : nat) (p : prog A) {struct p} : Prop :=
  match p, n with
  | Done r, _ => Q r
  | @Act _ _ m k, 0 => False
  | @Act _ _ m k, S n => exists x, (forall u, w_on u = false -> w_heap u = h -> w_on (fst (m u)) = false /\ w_heap (fst (m u)) = h /\ snd (m u) = x) /\
      (forall wc uc, Sim J wc uc -> w_heap wc = h -> simAt J m wc uc) /\ ro J h Q n (k x)
  end.
Lemma ro_gen {A} J h (p : prog A) : genr J h p -> exists n, forall u, w_on u = false -> w_heap u = h -> ro J h (fun r => r = snd (solo p u)) n p.
Proof.
  intros Hg. enough (G : exists n x, ro J h (fun r => r = x) n p /\ forall u, w_on u = false -> w_heap u = h -> snd (solo p u) = x).
  { destruct G as (n & x & G1 & G2). exists n. intros u H1 H2. rewrite (G2 u H1 H2). exact G1. }
  induction p as [r|C m k IH].
  - exists 0, r. split; [reflexivity|reflexivity].
  - destruct Hg as [[H1 [x H2]] H3]. destruct (IH x (H3 x (proj2 (proj2 (H2 (bare h) eq_refl eq_refl))))) as (n & y & G1 & G2). exists (S n), y. split; [exists x; auto|].
    intros u U1 U2. cbn [solo]. destruct (H2 u U1 U2) as (B1 & B2 & B3). rewrite B3. now apply G2.
Qed.
Lemma conc_ro J h (Q : nat -> res (list out) -> Prop) : forall sched wc uc ts (n : nat -> nat),
  Sim J wc uc -> w_heap wc = h -> (forall i p, nth_error ts i = Some p -> ro J h (Q i) (n i) p) ->
  let end_ := interleaved sched wc ts in
  w_heap (fst end_) = h /\ (forall i r, nth_error (snd end_) i = Some (Done r) -> Q i r) /\
  (forall i, i < length ts -> n i <= count_occ Nat.eq_dec sched i -> exists r, nth_error (snd end_) i = Some (Done r)).
Proof.
  induction sched as [|i sched IH]; intros wc uc ts n HS Eh Hro.
  { cbn. split; [exact Eh|]. split; [intros i r E; exact (Hro i _ E)|]. intros i Hi Hn. destruct (nth_error ts i) as [[r|B m k]|] eqn:E; [eauto| |apply nth_error_None in E; lia].
    specialize (Hro i _ E). destruct (n i); [contradiction|lia]. }
  cbn [interleaved]. destruct (nth_error ts i) as [[r|B m k]|] eqn:Ei.
  - destruct (IH wc uc ts n HS Eh Hro) as (A1 & A2 & A3). split; [exact A1|]. split; [exact A2|]. intros j Hj Hn. destruct (Nat.eq_dec i j) as [<-|Hne].
    + destruct (IH wc uc ts (fun x => if x =? i then 0 else n x) HS Eh) as (_ & _ & B3).
      { intros x p Ex. destruct (Nat.eqb_spec x i) as [->|]; [|now apply Hro]. rewrite Ei in Ex. injection Ex as <-. exact (Hro i _ Ei). }
      apply B3; [exact Hj|]. rewrite Nat.eqb_refl. lia.
    + apply A3; [exact Hj|]. rewrite count_occ_cons_neq in Hn by assumption. exact Hn.
  - pose proof (Hro i _ Ei) as Hi. destruct (n i) as [|n0] eqn:Eni; [contradiction|]. destruct Hi as (x & Hst & Hsim & Hk).
    destruct (Hsim wc uc HS Eh) as [Er HS']. assert (Eu : w_heap uc = h) by (destruct HS as (_ & _ & E & _); congruence).
    destruct (Hst uc (proj1 (proj2 HS)) Eu) as (B1 & B2 & B3). assert (Eh' : w_heap (fst (m wc)) = h) by (destruct HS' as (_ & _ & E & _); congruence).
    assert (Ex : snd (m wc) = x) by congruence. clear Er. destruct (m wc) as [wc1 r1]. cbn [fst snd] in *. subst r1.
    set (n1 := fun j => if j =? i then n0 else n j).
    assert (Hro1 : forall j p, nth_error (list_set ts i (k x)) j = Some p -> ro J h (Q j) (n1 j) p).
    { intros j p Ej. rewrite nth_error_list_set in Ej. unfold n1. rewrite (Nat.eqb_sym j i). destruct (Nat.eqb_spec i j) as [<-|Hne]; cbn [andb] in Ej; [|now apply Hro].
      assert (Hlt : (i <? length ts) = true) by (apply Nat.ltb_lt, nth_error_Some; congruence). rewrite Hlt in Ej. injection Ej as <-. exact Hk. }
    destruct (IH wc1 (fst (m uc)) _ n1 HS' Eh' Hro1) as (A1 & A2 & A3). split; [exact A1|]. split; [exact A2|].
    intros j Hj Hn. apply A3; [now rewrite list_set_length|]. unfold n1. destruct (Nat.eqb_spec j i) as [->|Hne].
    + rewrite count_occ_cons_eq in Hn by reflexivity. lia.
    + rewrite count_occ_cons_neq in Hn by congruence. exact Hn.
  - destruct (IH wc uc ts n HS Eh Hro) as (A1 & A2 & A3). split; [exact A1|]. split; [exact A2|]. intros j Hj Hn. apply A3; [exact Hj|].
    destruct (Nat.eq_dec i j) as [<-|Hne]; [apply nth_error_None in Ei; lia|]. rewrite count_occ_cons_neq in Hn by assumption. exact Hn.
Qed.

Lemma ro_mono {A} J h (Q : res A -> Prop) (p : prog A) : forall n n', ro J h Q n p -> n <= n' -> ro J h Q n' p.
Proof.
  induction p as [r|C m k IH]; intros n n' H L; [destruct n, n'; exact H|]. destruct n as [|n]; [contradiction|]. destruct n' as [|n']; [lia|].
  destruct H as (x & H1 & H2 & H3). exists x. split; [exact H1|]. split; [exact H2|]. apply (IH x n); [exact H3|lia].
Qed.
Lemma ro_imp {A} J h (Q Q' : res A -> Prop) (p : prog A) : (forall r, Q r -> Q' r) -> forall n, ro J h Q n p -> ro J h Q' n p.
Proof.
  intros HQ. induction p as [r|C m k IH]; intros n H; [destruct n; now apply HQ|]. destruct n as [|n]; [contradiction|].
  destruct H as (x & H1 & H2 & H3). exists x. auto.
Qed.
Lemma reads_adm J h p : only_reads p = true -> adm1 J h p.
Proof. intros R. destruct p; cbn in R; try discriminate R; try exact I; destruct kw; try discriminate R; intros _ r _ x []. Qed.

(** ** C101 *)
(** The property: whatever the threads do with a shared object, each call returns what it returns if the calls
    are made one after the other in some order. *)
Definition C101_intended : Prop := forall seng ps o p q sched x,
  let w := fst (run (init seng true) ps) in
  uses o p = true -> uses o q = true ->
  adm [] (init seng true) (ps ++ [p; q]) -> adm [] (init seng true) (ps ++ [q; p]) ->
  nth_error (snd (interleaved sched w [p_ops [p]; p_ops [q]])) 0 = Some (Done (Ok [x])) ->
  x = snd (step w p) \/ x = snd (step (fst (step w q)) p).

(** It holds for threads that only evaluate objects whose configuration does not change, if the coefficients
    of the interaction term have been computed before (by a call of calc or interaction) or int_Q is off. *)
Theorem C101_partial seng ps (threads : list (list op)) :
  let w := fst (run (init seng true) ps) in
  adm [] (init seng true) ps ->
  (forall calls p, In calls threads -> In p calls -> only_reads p = true /\ exists o, uses o p = true /\ quiet (w_heap w) o) ->
  (forall sched, let end_ := interleaved sched w (map p_ops threads) in
     w_heap (fst end_) = w_heap w /\
     forall i calls r, nth_error threads i = Some calls -> nth_error (snd end_) i = Some (Done r) -> r = Ok (snd (run w calls))) /\
  (exists n, forall sched i, i < length threads -> n <= count_occ Nat.eq_dec sched i ->
     exists r, nth_error (snd (interleaved sched w (map p_ops threads))) i = Some (Done r)).
Proof.
  intros w Ha Hth. destruct (adm_split seng ps []) as (HS & HBw & _); [now rewrite app_nil_r|]. fold w in HS, HBw.
  set (J0 := fold_left J_after ps []) in *. set (h := w_heap w) in *. set (u0 := bare h) in *.
  (** enough objects in [J] *)
  set (J := flat_map (fun calls => flat_map (fun p => match target p with Some o => [o] | None => [] end) calls) threads ++ J0).
  assert (HSJ : Sim J w u0).
  { unfold J. generalize (flat_map (fun calls => flat_map (fun p => match target p with Some o => [o] | None => [] end) calls) threads). intros l.
    induction l as [|o l IH]; [exact HS|]. cbn [app]. now apply Sim_more. }
  assert (HJ : forall calls p o, In calls threads -> In p calls -> uses o p = true -> In o J).
  { intros calls p o I1 I2 U. unfold J. apply in_app_iff. left. apply in_flat_map. exists calls. split; [exact I1|]. apply in_flat_map. exists p. split; [exact I2|].
    rewrite (uses_target o p U). now left. }
  assert (Hg : forall calls, In calls threads -> genr J h (p_ops calls)).
  { intros calls I1. assert (G : forall qs, incl qs calls -> genr J h (p_ops qs)); [|apply G, incl_refl].
    induction qs as [|p qs IH]; intros Hi; [exact I|]. cbn [p_ops]. apply gr_bind; [|intros x; apply gr_bind; [apply IH; intros y Y; apply Hi; now right|intros; exact I]].
    assert (I2 : In p calls) by (apply Hi; now left). destruct (Hth calls p I1 I2) as (R & o & U & Qo). apply (gr_op J h o); auto. now apply (HJ calls p). }
  assert (Hrun : forall calls, In calls threads -> snd (run u0 calls) = snd (run w calls)).
  { intros calls I1. apply (run_bare calls J w u0); [|exact HSJ|exact HBw].
    assert (G : forall qs J w, incl qs calls -> adm J w qs); [|apply G, incl_refl]. induction qs as [|p qs IH]; intros J1 w1 Hi; [exact I|].
    split; [|apply IH; intros y Y; apply Hi; now right]. destruct (Hth calls p I1 (Hi p (or_introl eq_refl))) as (R & _). now apply reads_adm. }
  assert (Hn : exists n, forall calls, In calls threads -> ro J h (fun r => r = Ok (snd (run w calls))) n (p_ops calls)).
  { assert (G : forall l, incl l threads -> exists n, forall calls, In calls l -> ro J h (fun r => r = Ok (snd (run w calls))) n (p_ops calls)); [|apply (G threads), incl_refl].
    induction l as [|c l IH]; intros Hi; [exists 0; intros ? []|]. destruct IH as [n1 H1]; [intros y Y; apply Hi; now right|].
    assert (Ic : In c threads) by (apply Hi; now left).
    destruct (ro_gen J h (p_ops c) (Hg c Ic)) as [n2 H2]. specialize (H2 u0 eq_refl eq_refl). rewrite solo_ops in H2. cbn [snd] in H2. rewrite (Hrun c Ic) in H2.
    exists (Nat.max n1 n2). intros calls [<-|I2]; [apply (ro_mono _ _ _ _ n2); [exact H2|lia]|apply (ro_mono _ _ _ _ n1); [now apply H1|lia]]. }
  destruct Hn as [n Hn].
  assert (Hro : forall i p, nth_error (map p_ops threads) i = Some p -> ro J h (fun r => forall calls, nth_error threads i = Some calls -> r = Ok (snd (run w calls))) n p).
  { intros i p E. rewrite nth_error_map in E. destruct (nth_error threads i) as [c|] eqn:Ec; [|discriminate]. injection E as <-.
    apply (ro_imp _ _ (fun r => r = Ok (snd (run w c)))); [intros r -> calls [= <-]; reflexivity|]. apply Hn. now apply nth_error_In in Ec. }
  split.
  - intros sched end_. destruct (conc_ro J h _ sched w u0 (map p_ops threads) (fun _ => n) HSJ eq_refl Hro) as (A1 & A2 & _). split; [exact A1|].
    intros i calls r Ec Er. exact (A2 i r Er calls Ec).
  - exists n. intros sched i Hi Hc. destruct (conc_ro J h _ sched w u0 (map p_ops threads) (fun _ => n) HSJ eq_refl Hro) as (_ & _ & A3). apply A3; [now rewrite map_length|exact Hc].
Qed.
Print Assumptions C101_partial.

(** Two threads call surface() of one object with different values of tau.  The first stores its value in
    param_dict, then the second does, and the first continues: it returns the result for the other value
    (here visible in the shape of the array). *)
Definition shp_of (x : out) : option (list nat) := match x with RetArr a => Some (shp a) | _ => None end.
Definition shp_done (p : option (prog (list out))) : option (list nat) := match p with Some (Done (Ok [x])) => shp_of x | _ => None end.
Definition call_a : op := OSurface 0 [("tau", PNum (Fin 1))].
Definition call_b : op := OSurface 0 [("tau", PArr 2)].
Definition racing : list nat := 0 :: 1 :: repeat 0 60.
Theorem C101_refuted : ~ C101_intended.
Proof.
  intros C. specialize (C true (histS [] [1; 3]) 0 call_a call_b racing). cbv zeta in C.
  assert (X : shp_done (nth_error (snd (interleaved racing (fst (run (init true true) (histS [] [1; 3]))) [p_ops [call_a]; p_ops [call_b]])) 0) = Some [2; 3]) by (vm_compute; reflexivity).
  assert (Y1 : shp_of (snd (step (fst (run (init true true) (histS [] [1; 3]))) call_a)) = Some [2]) by (vm_compute; reflexivity).
  assert (Y2 : shp_of (snd (step (fst (step (fst (run (init true true) (histS [] [1; 3]))) call_b)) call_a)) = Some [2]) by (vm_compute; reflexivity).
  assert (A1 : adm [] (init true true) (histS [] [1; 3] ++ [call_a; call_b])) by (apply histS_adm; unfold call_a, call_b; admx).
  assert (A2 : adm [] (init true true) (histS [] [1; 3] ++ [call_b; call_a])) by (apply histS_adm; unfold call_a, call_b; admx).
  destruct (nth_error _ 0) as [[[[|x [|]]|]|]|] in X, C; try discriminate X. cbn [shp_done] in X.
  destruct (C x eq_refl eq_refl A1 A2 eq_refl) as [E|E]; rewrite E in X; congruence.
Qed.
Print Assumptions C101_refuted.

(** three threads evaluating the same object *)
Definition readers : list (list op) := [[OSurface 0 []; OJacobian 0 ["tau"; "t"] "list"]; [OCalc 0 []; OReadParam 0 Tau]; [OVolume 0 []; OReadAngle 0 T0]].
Definition turns (n k : nat) : list nat := concat (repeat (seq 0 n) k).
Example C101_nonvacuous :
  let ps := histS [] [1; 3] in let w := fst (run (init true true) ps) in
  adm [] (init true true) ps /\
  (forall calls p, In calls readers -> In p calls -> only_reads p = true /\ exists o, uses o p = true /\ quiet (w_heap w) o) /\
  map outs_of (snd (interleaved (turns 3 100) w (map p_ops readers))) = [[1; 2]; [1; 1]; [1; 1]].
Proof.
  cbv zeta. split; [exact (histS_adm0 true [] [1; 3])|]. split; [|vm_compute; reflexivity].
  assert (Hq : quiet (w_heap (fst (run (init true true) (histS [] [1; 3])))) 0).
  { intros r Hr. right; right. apply (f_equal (fun x => match x with Ok r => r_intQ r | _ => false end)) in Hr. rewrite <- Hr. vm_compute. reflexivity. }
  intros calls p [<-|[<-|[<-|[]]]] Ip; cbn [In] in Ip; repeat (destruct Ip as [<-|Ip]; [split; [reflexivity|]; exists 0; split; [reflexivity|exact Hq]|]); destruct Ip.
Qed.
