(** C104: sessions in which any number of calls are interrupted. *)
From Verif Require Import Stable StateProps StateProps2 Memo PlotFacts Sessions Stale Lazy Properties14 Properties15 Properties37 Properties39 Threads Config Properties40 Crash.
From Coq Require Import Reals Lra Lia.
Open Scope string_scope.
Open Scope nat_scope.
Open Scope list_scope.

(** ** Sessions *)
(** a call that returns or raises, or one that is interrupted after [n] steps *)
Inductive item := Call (q : op) | Cut (q : op) (n : nat).
(** what the calls that were not interrupted returned *)
Fixpoint session (w : world) (l : list item) : list out :=
  match l with
  | [] => []
  | Call q :: l => snd (step w q) :: session (fst (step w q)) l
  | Cut q n :: l => session (stopped n (c_op q) w) l
  end.
(** a history without interruptions; the results of the calls marked [true] are looked at *)
Fixpoint heard (w : world) (c : list (op * bool)) : list out :=
  match c with
  | [] => []
  | (q, true) :: c => snd (step w q) :: heard (fst (step w q)) c
  | (q, false) :: c => heard (fst (step w q)) c
  end.
(** what may stand for an interrupted call: nothing, or update_params() with its parameters; nothing, or a
    set_geometry() with the first few of its angles; nothing, or the whole assignment *)
Definition stands_for (q : op) (c : list op) : Prop :=
  c = [] \/
  match q with
  | OCalc o kw | OSurface o kw | OVolume o kw | OInteraction o kw | OUpdate o kw => c = [OUpdate o kw]
  | OSetGeometry o kw => exists k, k <= length kw /\ c = [OSetGeometry o (firstn k kw)]
  | OSetDef _ _ _ => c = [q]
  | _ => False
  end.
Inductive explains : list item -> list (op * bool) -> Prop :=
| ex_nil : explains [] []
| ex_call q l c : explains l c -> explains (Call q :: l) ((q, true) :: c)
| ex_cut q n l c' c : stands_for q c' -> explains l c -> explains (Cut q n :: l) (map (fun p => (p, false)) c' ++ c).
(** the calls that may be interrupted: all but set_monostatic and set_bistatic (C103) *)
Definition cuttable (q : op) : Prop := match q with OSetMono _ _ | OSetBi _ _ _ _ _ => False | _ => True end.
Definition fine (h : heap) (i : item) : Prop := match i with Call q => routine h q | Cut q _ => routine h q /\ cuttable q end.

(** ** One interrupted call *)
Lemma update_heap h o kw r : obj h o = Ok r -> evalh h (OUpdate o kw) = set_objs h (list_set (h_objs h) o (upd_rec r kw)).
Proof. intros Hr. unfold evalh. cbn [step]. rewrite fst_as_out, update_params_eq, (bind_get o r); [|exact Hr]. reflexivity. Qed.
Lemma cut_eval J w o p kw r n : Sim J w (bare (w_heap w)) -> HB (w_heap w) -> adm1 J (w_heap w) p -> interruptible p = Some (o, kw) -> obj (w_heap w) o = Ok r ->
  let ws := stopped (S n) (p_op p) w in
  (exists J' u, Sim J' ws u) /\ HB (w_heap ws) /\ lazy_eq (evalh (w_heap w) (OUpdate o kw)) (w_heap ws).
Proof.
  intros HS HBw A1 Hp Hr ws. set (h := w_heap w) in *.
  set (b := if in_dec Nat.eq_dec o J then true else false). assert (HJb : In o J <-> b = true) by (unfold b; destruct (in_dec Nat.eq_dec o J); intuition discriminate).
  assert (Hsafe : safe o (fun _ _ _ => True) b (bare h) (p_op p)) by (apply (op_safe o p b (bare h) J); [now apply (int_uses p o kw)|exact HJb|exact A1|exact I]).
  destruct (stopped_sim o _ (p_op p) (S n) b (bare h) J w Hsafe HS HBw HJb) as (J' & S1 & B1). split; [exists J', (stopped (S n) (p_op p) (bare h)); exact S1|]. split; [exact B1|].
  destruct (walk_bare h o r p kw n HBw Hp Hr) as (_ & r' & E & Sx). assert (E1 : w_heap ws = w_heap (stopped (S n) (p_op p) (bare h))) by apply S1.
  rewrite (update_heap h o kw r Hr), E1, E. exists (list_set (h_objs h) o r'). split; [destruct h; reflexivity|]. cbn [h_objs set_objs]. apply F2_set; [apply F2_refl|exact Sx].
Qed.
Lemma upd_nothing h o r : HB h -> obj h o = Ok r -> evalh h (OUpdate o []) = h.
Proof.
  intros B Hr. rewrite (update_heap h o [] r Hr), (upd_rec_nil h o r B Hr). pose proof (proj1 (obj_nth h o r) Hr) as Hn. rewrite (list_set_self _ _ _ Hn). apply set_objs_same.
Qed.
Definition tidy (w : world) : Prop := (exists J u, Sim J w u) /\ HB (w_heap w).
(** the objects after the calls [c] *)
Definition after (h : heap) (c : list op) : heap := fold_left evalh c h.
Lemma cut_one w q n : tidy w -> routine (w_heap w) q -> cuttable q ->
  let ws := stopped n (c_op q) w in
  tidy ws /\ exists c, stands_for q c /\ Forall (routine (w_heap w)) c /\ lazy_eq (after (w_heap w) c) (w_heap ws).
Proof.
  intros [(J & u & HS) HBw] K Hc ws. apply Sim_bare in HS. set (h := w_heap w) in *.
  assert (Z : ws = w -> tidy ws /\ exists c, stands_for q c /\ Forall (routine h) c /\ lazy_eq (after h c) (w_heap ws)).
  { intros ->. split; [split; [exists J, (bare h); exact HS|exact HBw]|]. exists []. split; [now left|]. split; [constructor|apply lazy_refl]. }
  destruct n as [|n]; [apply Z; reflexivity|]. pose proof K as (o & r & U & Hr & K1). pose proof (routine_adm J h q K) as A1.
  assert (EV : forall kw, interruptible q = Some (o, kw) -> c_op q = p_op q -> incl (dkeys kw) (dkeys (r_params r)) ->
    tidy ws /\ Forall (routine h) [OUpdate o kw] /\ lazy_eq (after h [OUpdate o kw]) (w_heap ws)).
  { intros kw Hi Eq Hn. subst ws. rewrite Eq. destruct (cut_eval J w o q kw r n HS HBw A1 Hi Hr) as ((J' & u' & S') & B' & L). fold h in L. split; [split; [now exists J', u'|exact B']|].
    split; [|exact L]. constructor; [|constructor]. exists o, r. split; [apply Nat.eqb_refl|]. split; [exact Hr|exact Hn]. }
  assert (RD : c_op q = atom (step_m q) -> known h q -> rec_after q r = r -> tidy ws /\ exists c, stands_for q c /\ Forall (routine h) c /\ lazy_eq (after h c) (w_heap ws)).
  { intros Eq Kn Er. assert (E : ws = fst (step w q)) by (subst ws; rewrite Eq; unfold atom; cbn [stopped]; rewrite stopped_done; reflexivity). rewrite E. clear E.
    destruct (step_sim J w _ q HS HBw A1) as [_ S1]. split; [split; [eexists _, _; exact S1|now apply step_HB]|]. exists []. split; [now left|]. split; [constructor|].
    assert (E : w_heap (fst (step w q)) = evalh h q) by apply S1. rewrite E. cbn [after fold_left].
    destruct (known_answer h q o r Kn U Hr) as [_ (r' & E' & S')]. rewrite Er in S'. rewrite E'. exists (list_set (h_objs h) o r'). split; [reflexivity|].
    pose proof (proj1 (obj_nth h o r) Hr) as Hn. rewrite <- (list_set_self _ _ _ Hn) at 1. apply F2_set; [apply F2_refl|exact S']. }
  destruct q; try contradiction; cbn in U; apply Nat.eqb_eq in U; subst.
  - subst ws. cbn [c_op]. rewrite stopped_out. destruct (stopped_geometry J o kw (S n) w _ HS) as (k & u' & Hk & S1 & E1). split; [split; [now exists J, u'|eapply HB_stopped_geometry; eassumption]|].
    exists [OSetGeometry o (firstn k kw)]. split; [right; now exists k|]. assert (KG : routine h (OSetGeometry o (firstn k kw))) by (exists o, r; split; [apply Nat.eqb_refl|split; [exact Hr|exact I]]).
    split; [constructor; [exact KG|constructor]|]. destruct (step_sim J w _ _ HS HBw (routine_adm J h _ KG)) as [_ S2]. assert (E2 : w_heap (fst (step w (OSetGeometry o (firstn k kw)))) = evalh h (OSetGeometry o (firstn k kw))) by apply S2.
    cbn [step] in E2. rewrite fst_as_out in E2. rewrite E1, E2. apply lazy_refl.
  - subst ws. assert (E : stopped (S n) (c_op (OUpdate o kw)) w = fst (step w (OUpdate o kw))).
    { cbn [c_op p_op]. unfold atom. cbn [stopped]. rewrite stopped_done. reflexivity. }
    rewrite E. destruct (step_sim J w _ _ HS HBw A1) as [_ S1]. split; [split; [eexists _, _; exact S1|now apply step_HB]|]. exists [OUpdate o kw]. split; [now right|]. split; [constructor; [exact K|constructor]|].
    assert (E2 : w_heap (fst (step w (OUpdate o kw))) = evalh h (OUpdate o kw)) by apply S1. rewrite E2. apply lazy_refl.
  - match goal with K : routine h (OSetDef o ?a ?b) |- _ => rename a into pn, b into pd end.
    subst ws. cbn [c_op]. rewrite stopped_out. destruct (stopped_def J o pn pd (S n) w _ HS) as (u' & S1 & [E1|E1]).
    + split; [split; [now exists J, u'|rewrite E1; exact HBw]|]. exists []. split; [now left|]. split; [constructor|]. rewrite E1. apply lazy_refl.
    + destruct (step_sim J w _ _ HS HBw A1) as [_ S2]. assert (E2 : w_heap (fst (step w (OSetDef o pn pd))) = evalh h (OSetDef o pn pd)) by apply S2.
      pose proof (step_HB w (OSetDef o pn pd) HBw) as B2. cbn [step] in E2, B2. rewrite fst_as_out in E2, B2. split; [split; [now exists J, u'|rewrite E1; exact B2]|].
      exists [OSetDef o pn pd]. split; [now right|]. split; [constructor; [exact K|constructor]|]. rewrite E1, E2. apply lazy_refl.
  - apply RD; [reflexivity| |reflexivity]. exists o, r. split; [apply Nat.eqb_refl|]. split; [exact Hr|exact I].
  - apply RD; [reflexivity| |reflexivity]. exists o, r. split; [apply Nat.eqb_refl|]. split; [exact Hr|exact I].
  - destruct (EV kw eq_refl eq_refl K1) as (X & Y & W). split; [exact X|]. exists [OUpdate o kw]. split; [now right|]. split; assumption.
  - destruct (EV kw eq_refl eq_refl K1) as (X & Y & W). split; [exact X|]. exists [OUpdate o kw]. split; [now right|]. split; assumption.
  - destruct (EV kw eq_refl eq_refl K1) as (X & Y & W). split; [exact X|]. exists [OUpdate o kw]. split; [now right|]. split; assumption.
  - destruct (EV kw eq_refl eq_refl K1) as (X & Y & W). split; [exact X|]. exists [OUpdate o kw]. split; [now right|]. split; assumption.
  - destruct (EV [] eq_refl eq_refl ltac:(intros x [])) as (X & Y & W). split; [exact X|]. exists []. split; [now left|]. split; [constructor|]. cbn [after fold_left] in *. rewrite (upd_nothing h o r HBw Hr) in W. exact W.
  - apply RD; [reflexivity| |reflexivity]. exists o, r. split; [apply Nat.eqb_refl|]. split; [exact Hr|exact I].
Qed.

(** ** C104 *)
Lemma routine_stays_l h c : HB h -> Forall (routine h) c -> forall q, routine h q -> HB (after h c) /\ routine (after h c) q.
Proof.
  revert h. induction c as [|p c IH]; intros h B F q K; [split; assumption|]. inversion F as [|? ? K0 F0]; subst. cbn [after fold_left]. apply IH.
  - exact (step_HB (bare h) p B).
  - eapply Forall_impl; [|exact F0]. intros x Hx. now apply routine_stays.
  - now apply routine_stays.
Qed.
Lemma after_lazy c : forall h h', HB h -> lazy_eq h h' -> Forall (routine h) c -> lazy_eq (after h c) (after h' c).
Proof.
  induction c as [|p c IH]; intros h h' B L F; [exact L|]. inversion F as [|? ? K0 F0]; subst. cbn [after fold_left]. apply IH.
  - exact (step_HB (bare h) p B).
  - now apply (lazy_eval h h' p B L K0).
  - eapply Forall_impl; [|exact F0]. intros x Hx. now apply routine_stays.
Qed.
Lemma fine_stays h q i : HB h -> routine h q -> fine h i -> fine (evalh h q) i.
Proof. intros B K. destruct i as [p|p n]; cbn; [now apply routine_stays|]. intros [X Y]. split; [now apply routine_stays|exact Y]. Qed.
Lemma fine_after h c i : HB h -> Forall (routine h) c -> fine h i -> fine (after h c) i.
Proof. intros B F. destruct i as [p|p n]; cbn; [now apply routine_stays_l|]. intros [X Y]. split; [now apply routine_stays_l|exact Y]. Qed.
Lemma step_tidy w q : tidy w -> routine (w_heap w) q -> tidy (fst (step w q)) /\ snd (step w q) = eval (w_heap w) q /\ w_heap (fst (step w q)) = evalh (w_heap w) q.
Proof.
  intros [(J & u & HS) B] K. apply Sim_bare in HS. destruct (step_sim J w _ q HS B (routine_adm J _ q K)) as [E1 S1].
  split; [split; [eexists _, _; exact S1|now apply step_HB]|]. split; [exact E1|apply S1].
Qed.
Lemma cut_run l : forall w1 w2, tidy w1 -> tidy w2 -> lazy_eq (w_heap w2) (w_heap w1) -> Forall (fine (w_heap w2)) l ->
  exists c, explains l c /\ session w1 l = heard w2 c.
Proof.
  induction l as [|i l IH]; intros w1 w2 T1 T2 L F; [exists []; split; [constructor|reflexivity]|]. inversion F as [|? ? K F0]; subst. pose proof T2 as [_ B2]. destruct i as [q|q n]; cbn in K.
  - destruct (step_tidy w2 q T2 K) as (T2' & E2 & H2). pose proof (routine_lazy _ _ _ L K) as K1. destruct (step_tidy w1 q T1 K1) as (T1' & E1 & H1).
    destruct (lazy_eval _ _ q B2 L K) as [E3 L3]. rewrite <- H1, <- H2 in L3.
    destruct (IH _ _ T1' T2' L3) as (c & X & Y).
    + rewrite H2. eapply Forall_impl; [|exact F0]. intros x Hx. now apply fine_stays.
    + exists ((q, true) :: c). split; [now constructor|]. cbn [session heard]. rewrite E1, E2, E3, Y. reflexivity.
  - destruct K as [K Hc]. pose proof (routine_lazy _ _ _ L K) as K1. destruct (cut_one w1 q n T1 K1 Hc) as (T1' & c' & Sf & Fc & Lc).
    assert (Fc2 : Forall (routine (w_heap w2)) c').
    { eapply Forall_impl; [|exact Fc]. intros x Hx. apply (routine_lazy (w_heap w1)); [|exact Hx]. destruct L as (lo & -> & Fo). exists (h_objs (w_heap w2)). split; [destruct (w_heap w2); reflexivity|].
      cbn [h_objs set_objs]. clear - Fo. induction Fo; constructor; auto. apply same_sym. assumption. }
    pose proof (lazy_trans _ _ _ (after_lazy c' _ _ B2 L Fc2) Lc) as L'.
    assert (exists w', tidy w' /\ w_heap w' = after (w_heap w2) c' /\ forall c2, heard w2 (map (fun p => (p, false)) c' ++ c2) = heard w' c2) as (w' & Tw & Ew & Hw).
    { clear - T2 Fc2. revert w2 T2 Fc2. induction c' as [|p c IH]; intros w T F; [exists w; repeat split; try apply T; reflexivity|]. inversion F as [|? ? K0 F0]; subst.
      destruct (step_tidy w p T K0) as (T1 & _ & E1). destruct (IH (fst (step w p)) T1) as (w' & T' & E' & H').
      - rewrite E1. eapply Forall_impl; [|exact F0]. intros x Hx. apply routine_stays; auto. apply T.
      - exists w'. split; [exact T'|]. split; [rewrite E', E1; reflexivity|]. exact H'. }
    rewrite <- Ew in L'. destruct (IH _ _ T1' Tw L') as (c & X & Y).
    + rewrite Ew. eapply Forall_impl; [|exact F0]. intros x Hx. now apply fine_after.
    + exists (map (fun p => (p, false)) c' ++ c). split; [now constructor|]. cbn [session]. rewrite Hw. exact Y.
Qed.
(** Whatever calls of a session are interrupted, and wherever: there is a history without interruptions, which
    makes the calls that were not interrupted and, in place of each that was, nothing or the part of its
    effect described by [stands_for], and in it the calls return what they returned in the session. *)
Theorem C104_sessions seng ps l :
  let w := fst (run (init seng true) ps) in
  adm [] (init seng true) ps -> Forall (fine (w_heap w)) l -> exists c, explains l c /\ session w l = heard w c.
Proof.
  intros w Ha F. destruct (run_Sim ps [] _ _ (Sim_init seng) (HB_init seng) Ha) as [HS HB0]. fold w in HS, HB0.
  assert (T : tidy w) by (split; [eexists _, _; exact HS|exact HB0]). apply cut_run; auto. apply lazy_refl.
Qed.
Print Assumptions C104_sessions.

(** Interrupted calls without parameters leave no trace: the others return what they return without them. *)
Definition silent (q : op) : Prop :=
  match q with
  | OCalc _ kw | OSurface _ kw | OVolume _ kw | OInteraction _ kw | OUpdate _ kw => kw = []
  | OJacobian _ _ _ | OReadAngle _ _ | OReadParam _ _ | OParamDict _ => True
  | _ => False
  end.
Definition returned (l : list item) : list op := flat_map (fun i => match i with Call q => [q] | Cut _ _ => [] end) l.
Lemma silent_after h q c : HB h -> routine h q -> silent q -> stands_for q c -> after h c = h.
Proof.
  intros B (o & r & U & Hr & _) Hs [->|Sf]; [reflexivity|]. destruct q; try contradiction; cbn in Hs, U; apply Nat.eqb_eq in U; subst; cbn [after fold_left]; apply (upd_nothing h o r B Hr).
Qed.
Lemma silent_run l : forall w1 w2, tidy w1 -> tidy w2 -> lazy_eq (w_heap w2) (w_heap w1) -> Forall (fine (w_heap w2)) l ->
  Forall (fun i => match i with Call _ => True | Cut q _ => silent q end) l -> session w1 l = snd (run w2 (returned l)).
Proof.
  induction l as [|i l IH]; intros w1 w2 T1 T2 L F G; [reflexivity|]. inversion F as [|? ? K F0]; subst. inversion G as [|? ? Ks G0]; subst. pose proof T2 as [_ B2]. destruct i as [q|q n]; cbn in K.
  - destruct (step_tidy w2 q T2 K) as (T2' & E2 & H2). pose proof (routine_lazy _ _ _ L K) as K1. destruct (step_tidy w1 q T1 K1) as (T1' & E1 & H1).
    destruct (lazy_eval _ _ q B2 L K) as [E3 L3]. rewrite <- H1, <- H2 in L3. cbn [session returned flat_map app run].
    assert (F' : Forall (fine (w_heap (fst (step w2 q)))) l) by (rewrite H2; eapply Forall_impl; [|exact F0]; intros x Hx; now apply fine_stays).
    rewrite (IH _ _ T1' T2' L3 F' G0), E1, E3, <- E2. destruct (step w2 q) as [w' x]. cbn [fst snd]. unfold returned. destruct (run w' _). reflexivity.
  - destruct K as [K Hc]. pose proof (routine_lazy _ _ _ L K) as K1. destruct (cut_one w1 q n T1 K1 Hc) as (T1' & c' & Sf & _ & Lc). pose proof T1 as [_ B1].
    rewrite (silent_after _ q c' B1 K1 Ks Sf) in Lc. cbn [session returned flat_map app]. apply (IH _ _ T1' T2 (lazy_trans _ _ _ L Lc) F0 G0).
Qed.
Theorem C104_transparent seng ps l :
  let w := fst (run (init seng true) ps) in
  adm [] (init seng true) ps -> Forall (fine (w_heap w)) l -> Forall (fun i => match i with Call _ => True | Cut q _ => silent q end) l ->
  session w l = snd (run w (returned l)).
Proof.
  intros w Ha F G. destruct (run_Sim ps [] _ _ (Sim_init seng) (HB_init seng) Ha) as [HS HB0]. fold w in HS, HB0.
  assert (T : tidy w) by (split; [eexists _, _; exact HS|exact HB0]). apply silent_run; auto. apply lazy_refl.
Qed.
Print Assumptions C104_transparent.

(** ** an example: two angles; four calls are interrupted *)
Definition routineb (h : heap) (q : op) : bool :=
  knownb h q ||
  match target q with
  | None => false
  | Some o => uses o q && match obj h o with Err _ => false | Ok _ => match q with OSetGeometry _ _ | OSetDef _ _ _ => true | _ => false end end
  end.
Lemma routineb_routine h q : routineb h q = true -> routine h q.
Proof.
  intros E. apply orb_true_iff in E. destruct E as [E|E].
  - apply knownb_known in E. destruct E as (o & r & U & Hr & K). exists o, r. split; [exact U|]. split; [exact Hr|]. destruct q; try contradiction; exact K.
  - destruct (target q) as [o|]; [|discriminate E]. apply andb_true_iff in E. destruct E as [U E]. destruct (obj h o) as [r|] eqn:Hr; [|discriminate E].
    exists o, r. split; [exact U|]. split; [exact Hr|]. destruct q; try discriminate E; exact I.
Qed.
Definition fineb (h : heap) (i : item) : bool := match i with Call q => routineb h q | Cut q _ => routineb h q && match q with OSetMono _ _ | OSetBi _ _ _ _ _ => false | _ => true end end.
Lemma fineb_fine h l : forallb (fineb h) l = true -> Forall (fine h) l.
Proof.
  intros E. rewrite forallb_forall in E. apply Forall_forall. intros i Hi. specialize (E i Hi). destruct i as [q|q n]; cbn in *; [now apply routineb_routine|].
  apply andb_true_iff in E. destruct E as [E1 E2]. split; [now apply routineb_routine|]. destruct q; try exact I; discriminate E2.
Qed.
Definition broken_session : list item :=
  [ Call (OCalc 0 []); Cut (OCalc 0 [("tau", PNum (Fin (1/4)))]) 7; Call (OReadParam 0 Tau);
    Cut (OSetGeometry 0 [("t_0", Some (PArr 2)); ("p_0", Some (PNum (Fin 1)))]) 7; Call (OReadAngle 0 T0); Cut (OJacobian 0 ["tau"; "t"] "list") 9;
    Cut (OSetDef 0 Omega (DVal (PNum (Fin (1/8))))) 3; Call (OSurface 0 []); Call (OReadParam 0 Omega); Call (OJacobian 0 ["tau"] "list") ].
Example C104_nonvacuous :
  let w := fst (run (init true true) (histS [] [1; 3])) in
  adm [] (init true true) (histS [] [1; 3]) /\ Forall (fine (w_heap w)) broken_session /\
  shps (session w broken_session) = [[2; 3; 3]; [1]; [1; 3]; [1; 3]; []; []] /\ kinds (session w broken_session) = [1; 1; 1; 1; 1; 2].
Proof.
  cbv zeta. split; [apply histS_adm0|]. split; [apply fineb_fine; vm_compute; reflexivity|]. split; vm_compute; reflexivity.
Qed.
