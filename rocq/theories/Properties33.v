(** The dashed line of Analyze: surface + volume. *)
From Coquelicot Require Import Coquelicot.
From Coq Require Import Lia List.
From Verif Require Import SpecScat SpecExp SpecInt Flip.
From Verif Require Import SurfVol After Properties5 Properties6 Wit19.
Open Scope nat_scope.
Open Scope list_scope.

(** *** C95.  After calc() returned, _surface_volume() returns the total that calc() returns with int_Q switched off, while the surface and
    volume contributions stay what they were, in all units and modes *)
Theorem C95_total_without_interaction : forall w o kw a iq sg db tau,
  let w' := fst (step w (OCalc o kw)) in
  good w (OCalc o kw) -> snd (step w (OCalc o kw)) = RetArr a ->
  obs_flags w' o iq sg db -> obs_param w' o Tau tau -> shp tau <> nil ->
  exists y b, snd (m_surface_volume o w') = Ok y /\
    snd (step (fst (step w' (OSetFlags o false sg db))) (OCalc o nil)) = RetArr b /\
    same_arr (row b 0) y /\ same_arr (row b 1) (row a 1) /\ same_arr (row b 2) (row a 2).
Proof.
  intros w o kw a iq sg db tau w' G E Fl Ht Hshp.
  destruct (eval_after w (OCalc o kw) o kw a eq_refl G E) as (C & fe & Hc & Hp). cbn beta iota in Hp. fold w' in Hc.
  assert (G0 : good w' (OCalc o nil)) by (apply good_next; [exact G|intros; apply adm_nil]).
  assert (Gf : good w' (OSetFlags o false sg db)) by (apply good_next; [exact G|intros; exact I]).
  pose proof (proj1 (c_param _ _ _ _ _ G0 Hc Tau tau) Ht) as Ht'. destruct (p_val_ex _ _ _ Ht') as [bb Et].
  assert (bb = false). { destruct bb; [|reflexivity]. exfalso. apply Hshp. destruct Hc as (r & Hr & -> & _). eapply p_eval_num; eassumption. }
  subst bb. set (w2 := fst (step w' (OSetFlags o false sg db))).
  assert (G2 : good w2 (OCalc o nil)) by (apply good_next; [exact Gf|intros; apply adm_nil]).
  destruct (conf_flags _ _ _ _ _ _ _ Hc Fl) as (F1 & F2 & F3).
  destruct Hc as (r & Hr & EC & Ef).
  assert (H2 : obj (w_heap w2) o = Ok (with_flags r false sg db) /\ conf (w_heap w2) (with_flags r false sg db) = conf (w_heap w') (with_flags r false sg db)).
  { unfold w2. cbn [step]. unfold as_out, bind, get_obj, gets. rewrite Hr. unfold put_obj. cbn [fst snd w_heap set_heap].
    split; [|reflexivity]. unfold obj in *. cbn [h_objs set_objs]. destruct (nth_error (h_objs (w_heap w')) o) as [r0|] eqn:Hn; [|discriminate].
    now rewrite (nth_error_list_set_same _ _ _ _ Hn). }
  destruct H2 as [H2 HC2].
  assert (HC3 : conf (w_heap w2) (with_flags r false sg db) = no_int C) by (rewrite HC2, EC; apply conf_no_int; [rewrite EC in F2; exact F2|rewrite EC in F3; exact F3]).
  destruct (p_calc_no_int C fe (fnev_next (w_heap w2) (with_flags r false sg db)) a tau Hp Et) as (b & y & Hb & Hy & S0 & S1 & S2).
  exists y, b. split; [rewrite (surface_volume_value w' o _ G0 C fe) by (exists r; auto); exact Hy|].
  split; [|auto]. rewrite (calc_nil w2 o (no_int C) (fnev_next (w_heap w2) (with_flags r false sg db)) G2), Hb; [reflexivity|].
  exists (with_flags r false sg db). split; [exact H2|]. split; [now rewrite HC3|reflexivity].
Qed.
Print Assumptions C95_total_without_interaction.

(** drawing the line is silent: no object changes and no later call returns anything else *)
Theorem C95_no_effect : forall seng ps qs o, adm nil (init seng true) (ps ++ qs) ->
  let w := fst (run (init seng true) ps) in
  w_heap (fst (m_surface_volume o w)) = w_heap w /\ snd (run (fst (m_surface_volume o w)) qs) = snd (run w qs).
Proof. exact surface_volume_silent. Qed.
Print Assumptions C95_no_effect.

(** an object with int_Q=True and arrays of incidence angles and optical depths *)
Lemma param_after w o p tau : good w (OCalc o nil) -> (exists r, obj (w_heap w) o = Ok r) -> obs_param w o p tau -> obs_param (fst (step w (OCalc o nil))) o p tau.
Proof.
  intros G (r & Hr) Ht. destruct (calc_state w o r G Hr) as (r' & R1 & _ & _ & R4 & _). set (w' := fst (step w (OCalc o nil))) in *.
  assert (G' : good w' (OCalc o nil)) by (apply good_next; [exact G|intros; apply adm_nil]).
  apply (same_param w w' _ _ o (conf (w_heap w) r) (fnev_next (w_heap w) r) (fnev_next (w_heap w') r') G G'); [exists r; auto|exists r'; auto|exact Ht].
Qed.
Lemma wZ_tau a1 a2 a3 a4 : exists tau, obs_param (wZ a1 a2 a3 a4) 0 Tau tau /\ shp tau <> nil.
Proof.
  unfold obs_param. assert (A : is_arr (snd (step (wZ a1 a2 a3 a4) (OReadParam 0 Tau))) = true /\ match snd (step (wZ a1 a2 a3 a4) (OReadParam 0 Tau)) with RetArr a => shp a | _ => nil end = 1 :: 2 :: nil) by (split; vm_compute; reflexivity).
  destruct A as [A B]. destruct (is_arr_ex _ A) as [x Hx]. exists x. split; [exact Hx|]. rewrite Hx in B. rewrite B. discriminate.
Qed.
Lemma C95_case w : good w (OCalc 0 nil) -> (exists r, obj (w_heap w) 0 = Ok r) -> obs_flags w 0 true false false -> (exists a, snd (step w (OCalc 0 nil)) = RetArr a) ->
  (exists tau, obs_param w 0 Tau tau /\ shp tau <> nil) -> let w' := fst (step w (OCalc 0 nil)) in exists a tau,
  snd (step w (OCalc 0 nil)) = RetArr a /\ good w (OCalc 0 nil) /\ obs_flags w' 0 true false false /\ obs_param w' 0 Tau tau /\ shp tau <> nil.
Proof.
  intros G O Fl (a & Ha) (tau & Ht & Nt) w'. exists a, tau. split; [exact Ha|]. split; [exact G|]. split; [apply flags_after; assumption|].
  split; [apply param_after; assumption|exact Nt].
Qed.
Example C95_nonvacuous : forall t1 t2 u1 u2, let w' := fst (step (wZ t1 t2 u1 u2) (OCalc 0 nil)) in exists a tau,
  snd (step (wZ t1 t2 u1 u2) (OCalc 0 nil)) = RetArr a /\ good (wZ t1 t2 u1 u2) (OCalc 0 nil) /\ obs_flags w' 0 true false false /\ obs_param w' 0 Tau tau /\ shp tau <> nil.
Proof.
  intros t1 t2 u1 u2. apply C95_case; [apply wZ_good| |apply wZ_flags| |apply wZ_tau].
  - destruct (wZ_fun t1 t2 u1 u2) as [(r & Hr & _) _]. now exists r.
  - destruct (wZ_calc t1 t2 u1 u2) as (a & Ha & _). now exists a.
Qed.
