(** Witnesses: two incidence angles (columns) at two times (rows), one optical depth per time. *)
From Coquelicot Require Import Coquelicot.
From Coq Require Import Lia List.
From Verif Require Import SpecScat SpecExp SpecInt.
From Verif Require Export Properties19.
Open Scope string_scope.
Open Scope nat_scope.
Open Scope list_scope.

Definition pick {A} (n : nat) (a b : A) : A := match n with 0 => a | _ => b end.
Definition col (j : list nat) : nat := nth 0 j 0.
Definition time (j : list nat) : nat := nth 1 j 0.
(** t_0 of shape (2, 2), tau of shape (2, 1) *)
Definition grid (a b : R) : nd xr := mk_nd (2 :: 2 :: nil) (fun j => Fin (pick (col j) a b)).
Definition column (a b : R) : nd xr := mk_nd (1 :: 2 :: nil) (fun j => Fin (pick (time j) a b)).

Section Wit.
Context (tA tB uA uB : R).
Definition histZ : list op :=
  ONewScat VC :: ONewScat SC :: ONew (Some 0) (Some 1) true false false None None (PNum (Fin 2)) ::
  ONewArr (grid tA tB) :: ONewArr (column uA uB) ::
  OSetMono 0 None :: OSetGeometry 0 (("t_0", Some (PArr 0)) :: ("p_0", Some (PNum (Fin 0))) :: nil) ::
  OUpdate 0 (("tau", PArr 1) :: ("omega", PNum (Fin (1/3))) :: ("NormBRDF", PNum (Fin (1/4))) :: ("t", PNum (Fin (1/4))) :: nil) :: nil.
Definition wZ : world := fst (run (init true true) histZ).
Definition fZ (j : list nat) (s : string) : R :=
  if String.eqb s "theta_0" then pick (col j) tA tB else if String.eqb s "theta_ex" then pick (col j) tA tB else if String.eqb s "phi_0" then 0
  else if String.eqb s "phi_ex" then (0 + PI) else if String.eqb s "t" then 1/4 else if String.eqb s "tau" then pick (time j) uA uB
  else if String.eqb s "omega" then 1/3 else if String.eqb s "bsf" then 0 else 1/4.
Definition xZ (j : list nat) : point :=
  mk_point 2 (pick (col j) tA tB) (pick (col j) tA tB) (pick (time j) uA uB) (1/3) (1/4) 0 (phase_value (fZ j) VC) (phase_value (fZ j) SC).
Notation W := wZ.
Lemma wZ_tidy p : ~ reassigns p -> num_arg p -> (forall J h, adm1 J h p) -> tidy W p.
Proof.
  intros N A H. exists true, histZ. split; [|split; [|reflexivity]].
  - unfold histZ. cbn [app]. repeat (split; [try exact I|]); try exact I; try apply H; intros [].
  - unfold histZ. cbn [app]. repeat (constructor; [split; [first [exact N|intros []]|first [exact A|exact I|discriminate|repeat split; discriminate]]|]); constructor.
Qed.
Lemma wZ_tidy_calc : tidy W (OCalc 0 nil).
Proof. apply wZ_tidy; [intros []|exact I|intros; apply adm_nil]. Qed.
Lemma wZ_good : good W (OCalc 0 nil).
Proof. apply tidy_good, wZ_tidy_calc. Qed.
Lemma wZ_calc : exists a, snd (step W (OCalc 0 nil)) = RetArr a /\ shp (row a 0) = 2 :: 2 :: nil.
Proof.
  assert (O : forall p, match p with OSurface 0 nil | OVolume 0 nil | OInteraction 0 nil => true | _ => false end = true ->
    exists a, snd (step W p) = RetArr a /\ shp a = 2 :: 2 :: nil).
  { intros p Hp. assert (A : is_arr (snd (step W p)) = true /\ match snd (step W p) with RetArr a => shp a | _ => nil end = 2 :: 2 :: nil).
    { destruct p as [| | | | | | | | | | | | | | |o kw|o kw|o kw| | | | | | | | | |]; try discriminate Hp; try (destruct o; [|discriminate Hp]; destruct kw; [|discriminate Hp]); split; vm_compute; reflexivity. }
    destruct A as [A B]. destruct (is_arr_ex _ A) as [a Ha]. exists a. split; [exact Ha|]. now rewrite Ha in B. }
  destruct (O (OSurface 0 nil) eq_refl) as (s & Es & Ss). destruct (O (OVolume 0 nil) eq_refl) as (v & Ev & Sv). destruct (O (OInteraction 0 nil) eq_refl) as (ii & Ei & Si).
  assert (T : exists tau, obs_param W 0 Tau tau /\ shp tau <> nil).
  { unfold obs_param. assert (A : is_arr (snd (step W (OReadParam 0 Tau))) = true /\ match snd (step W (OReadParam 0 Tau)) with RetArr a => shp a | _ => nil end = 1 :: 2 :: nil) by (split; vm_compute; reflexivity).
    destruct A as [A B]. destruct (is_arr_ex _ A) as [a Ha]. exists a. split; [exact Ha|]. rewrite Ha in B. rewrite B. discriminate. }
  destruct T as (tau & Ht & Nt). destruct (calc_exists W 0 s v ii tau wZ_good Es Ev Ei Ht Nt) as (a & Ha & Sa); [congruence..|].
  exists a. split; [exact Ha|]. rewrite Sa. exact Ss.
Qed.
Ltac obs_at j H := match type of H with
  | ?lhs = RetArr ?a => match goal with |- _ = ?v => let E := fresh in
      assert (E : match lhs with RetArr b => bget b j | _ => NaN end = v) by (vm_compute; reflexivity);
      rewrite H in E; exact E end
  end.
Lemma idx22 (Q : list nat -> Prop) : Q (0 :: 0 :: nil) -> Q (1 :: 0 :: nil) -> Q (0 :: 1 :: nil) -> Q (1 :: 1 :: nil) ->
  forall j, valid_idx (2 :: 2 :: nil) j -> Q j.
Proof.
  intros A B C D j H. destruct j as [|k [|r [|]]]; try (simpl in H; tauto). destruct H as (H1 & H2 & _).
  destruct k as [|[|k]]; [| |lia]; (destruct r as [|[|r]]; [assumption|assumption|lia]).
Qed.
Lemma wZ_named j : valid_idx (2 :: 2 :: nil) j -> named W 0 j (fZ j).
Proof.
  unfold named, obs_angle. intros Vj. revert j Vj. apply idx22.
  all: repeat split.
  all: try (unfold fZ; cbn [String.eqb Ascii.eqb Bool.eqb]; intros a H; match goal with |- bget _ ?j = _ => obs_at j H end).
  all: intros d k a H Hk;
    match goal with |- bget _ ?j = _ => 
    assert (E : match snd (step W (OParamDict 0)) with RetDict d => map (fun kv => (fst kv, bget (snd kv) j)) d | _ => nil end
      = ("bsf", Fin 0%R) :: ("tau", Fin (pick (time j) uA uB)) :: ("omega", Fin (1/3)) :: ("NormBRDF", Fin (1/4)) :: ("t", Fin (1/4)) :: nil) by (vm_compute; reflexivity);
    rewrite H in E; clear H;
    assert (M : dget (map (fun kv => (fst kv, bget (snd kv) j)) d) k = Some (bget a j))
      by (clear E; induction d as [|[k' v] d IH]; [discriminate|]; simpl in *; destruct (String.eqb k k'); [injection Hk as ->; reflexivity|auto])
    end;
    rewrite E in M; clear E Hk; cbn [dget] in M; unfold fZ;
    destruct (String.eqb_spec k "bsf") as [->|]; [injection M as <-; reflexivity|];
    destruct (String.eqb_spec k "tau") as [->|]; [injection M as <-; reflexivity|];
    destruct (String.eqb_spec k "omega") as [->|]; [injection M as <-; reflexivity|];
    destruct (String.eqb_spec k "NormBRDF") as [->|]; [injection M as <-; reflexivity|];
    destruct (String.eqb_spec k "t") as [->|]; [injection M as <-; reflexivity|]; discriminate.
Qed.
Lemma wZ_fun : obs_fun W 0 WV VC /\ obs_fun W 0 WSRF SC.
Proof. split; (eexists; split; [vm_compute; reflexivity|reflexivity]). Qed.
Lemma wZ_ok j : ok_scat (fZ j) VC /\ ok_scat (fZ j) SC.
Proof.
  split; simpl; unfold ok_t, ok_a, wd_a; simpl; unfold fZ; simpl; rewrite ?Q2R_1', ?Q2R_Z;
  repeat split; try exact I; try (apply Rabs_def1; lra); apply Rabs_le; lra.
Qed.
Lemma wZ_point j : valid_idx (2 :: 2 :: nil) j -> at_point W 0 j (xZ j).
Proof.
  intros Vj. pose proof (wZ_named j Vj) as NM. pose proof (wZ_ok j) as OK. revert j Vj NM OK. apply (idx22 (fun j => named W 0 j (fZ j) -> ok_scat (fZ j) VC /\ ok_scat (fZ j) SC -> at_point W 0 j (xZ j))).
  all: intros NM OK; unfold at_point.
  all: split; [intros a (r & Hr & Ha);
    match goal with |- bget _ ?j = _ => 
    assert (E : match obj (w_heap W) 0 with Ok r => match deref (w_heap W) (r_I0 r) with Ok b => bget b j | _ => NaN end | _ => NaN end = Fin 2%R)
      by (vm_compute; reflexivity) end; rewrite Hr, Ha in E; exact E|].
  all: unfold obs_angle, obs_param, xZ; cbn [p_I0 p_t0 p_tex p_tau p_omega p_norm p_bsfr p_vol p_brdf].
  all: do 6 (split; [intros a H; match goal with |- bget _ ?j = _ => obs_at j H end|]).
  all: split; intros a H; match goal with |- bget _ ?j = _ => 
    first [apply (C48_documented_phase_functions W (OCalc 0 nil) 0 WV _ a j (fZ j) wZ_good H); [apply wZ_fun|exact NM|apply OK]
          |apply (C48_documented_phase_functions W (OCalc 0 nil) 0 WSRF _ a j (fZ j) wZ_good H); [apply wZ_fun|exact NM|apply OK]] end.
Qed.
Lemma wZ_usable j : usable (fZ j) VC /\ usable (fZ j) SC.
Proof.
  split; (split; [simpl; intros s H; repeat (destruct H as [<-|H]); try contradiction; intros Z; repeat (destruct Z as [Z|Z]; [discriminate Z|]); exact Z|]);
  (split; [|exists 2; split; [reflexivity|lia]]); (split; [|constructor]); (constructor; [|constructor]); simpl; unfold wd_a; simpl; auto.
Qed.
(** more than one dimension: t_0 and t_ex have two dimensions, the functions are compiled by symengine *)
Lemma wZ_flat : flat W 0.
Proof.
  unfold flat, obs_angle, obs_param. exists 2. split; [|split; [|split; [|right; split]]].
  - intros b a H. assert (E : match snd (step W (OReadAngle 0 b)) with RetArr a => length (shp a) <=? 2 | _ => false end = true) by (destruct b; vm_compute; reflexivity).
    rewrite H in E. now apply Nat.leb_le.
  - intros a H. assert (E : match snd (step W (OReadParam 0 Tau)) with RetArr a => length (shp a) <=? 2 | _ => false end = true) by (vm_compute; reflexivity).
    rewrite H in E. now apply Nat.leb_le.
  - intros d k a H Hk. assert (E : match snd (step W (OParamDict 0)) with RetDict d => forallb (fun kv => length (shp (snd kv)) <=? 2) d | _ => false end = true) by (vm_compute; reflexivity).
    rewrite H in E. rewrite forallb_forall in E. apply Nat.leb_le. exact (E _ Hk).
  - intros a [H|H].
    + assert (E : match snd (step W (OReadAngle 0 T0)) with RetArr a => length (shp a) =? 2 | _ => false end = true) by (vm_compute; reflexivity). rewrite H in E. now apply Nat.eqb_eq.
    + assert (E : match snd (step W (OReadAngle 0 TEx)) with RetArr a => length (shp a) =? 2 | _ => false end = true) by (vm_compute; reflexivity). rewrite H in E. now apply Nat.eqb_eq.
  - assert (E : match obj (w_heap W) 0 with Ok r => match fnev_next (w_heap W) r with Ok (Some k) => match c_be k with Symengine => true | _ => false end | _ => false end | _ => false end = true) by (vm_compute; reflexivity).
    destruct (obj (w_heap W) 0) as [r|] eqn:Hr; [|discriminate E]. destruct (fnev_next (w_heap W) r) as [[k|]|] eqn:Hk; try discriminate E.
    exists r, k. split; [exact Hr|]. split; [exact Hk|]. left. destruct (c_be k); [discriminate E|reflexivity].
Qed.
Lemma wZ_own : own_fn W 0.
Proof. eexists. split; [vm_compute; reflexivity|split; reflexivity]. Qed.
Lemma wZ_inputs j : valid_idx (2 :: 2 :: nil) j -> inputs_at W 0 j (xZ j) (fZ j) VC SC.
Proof.
  intros Vj. split; [now apply wZ_point|]. split; [now apply wZ_named|]. split; [apply wZ_fun|]. split; [apply wZ_fun|].
  split; [apply wZ_usable|]. split; [apply wZ_usable|]. split; [apply wZ_flat|apply wZ_own].
Qed.
Lemma wZ_flags : obs_flags W 0 true false false.
Proof. eexists; split; [vm_compute; reflexivity|auto]. Qed.
End Wit.

Lemma inter_state w o r : good w (OInteraction o nil) -> obj (w_heap w) o = Ok r ->
  let w' := fst (step w (OInteraction o nil)) in
  exists r', obj (w_heap w') o = Ok r' /\ strip r' = strip r /\ h_scats (w_heap w') = h_scats (w_heap w) /\
    conf (w_heap w') r' = conf (w_heap w) r /\ fnev_next (w_heap w') r' = fnev_next (w_heap w) r.
Proof.
  intros G Hr w'. destruct (good_eval _ _ G) as (Hb & _ & E).
  destruct (eval_interaction (w_heap w) o r nil Hr) as [_ HA]. rewrite (upd_rec_nil _ _ _ Hb Hr) in HA.
  destruct (obj_after _ _ _ _ _ Hr HA) as (r' & R1 & R2 & R3 & R4). destruct HA as (r2 & E2 & _).
  exists r'. unfold w'. rewrite E. split; [exact R1|]. split; [exact R2|]. split; [|split; [exact R3|exact R4]]. rewrite E2. reflexivity.
Qed.
(** an evaluation without keyword arguments does not change the inputs *)
Lemma inputs_after w p o i x f V SRF : p = OCalc o nil \/ p = OInteraction o nil -> good w p -> inputs_at w o i x f V SRF -> inputs_at (fst (step w p)) o i x f V SRF.
Proof.
  intros Pq G (P & NM & (r1 & Hr & EV) & (r2 & Hr2 & ES) & UV & US & FL & (r3 & Hr3 & N1 & N2)).
  rewrite Hr in Hr2, Hr3. injection Hr2 as <-. injection Hr3 as <-.
  assert (Q : let w' := fst (step w p) in exists r', obj (w_heap w') o = Ok r' /\ strip r' = strip r1 /\ h_scats (w_heap w') = h_scats (w_heap w) /\
    conf (w_heap w') r' = conf (w_heap w) r1 /\ fnev_next (w_heap w') r' = fnev_next (w_heap w) r1).
  { destruct Pq; subst p; [apply calc_state|apply inter_state]; assumption. }
  destruct Q as (r' & R1 & R2 & R3 & R4 & R5). destruct (strip_fields _ _ R2) as (Q1 & Q2 & Q3 & Q4 & Q5 & Q6 & _).
  set (w' := fst (step w p)) in *.
  assert (G' : good w' (OCalc o nil)) by (apply good_next; [assumption|]; intros J; apply adm_nil).
  assert (H1 : at_conf w o (conf (w_heap w) r1) (fnev_next (w_heap w) r1)) by (exists r1; auto).
  assert (H2 : at_conf w' o (conf (w_heap w) r1) (fnev_next (w_heap w') r')) by (exists r'; auto).
  split; [exact (same_point w w' _ _ o _ _ _ G G' H1 H2 i x P)|]. split; [exact (same_named w w' _ _ o _ _ _ G G' H1 H2 i f NM)|].
  split. { exists r'. split; [exact R1|]. unfold scat_at in *. rewrite R3. cbn [scat_id] in *. rewrite Q3. exact EV. }
  split. { exists r'. split; [exact R1|]. unfold scat_at in *. rewrite R3. cbn [scat_id] in *. rewrite Q4. exact ES. }
  split; [exact UV|]. split; [exact US|]. split; [exact (same_flat w w' _ _ o _ _ _ G G' H1 H2 (eq_sym R5) FL)|].
  exists r'. split; [exact R1|]. split; congruence.
Qed.
Lemma wZ_all tA tB uA uB a : snd (step (wZ tA tB uA uB) (OCalc 0 nil)) = RetArr a -> shp (row a 0) = 2 :: 2 :: nil ->
  (0 < cos tA <= 1)%R -> (0 < cos tB <= 1)%R -> (0 <= uA)%R -> (0 <= uB)%R ->
  forall j, valid_idx (shp (row a 0)) j ->
    inputs_at (fst (step (wZ tA tB uA uB) (OCalc 0 nil))) 0 j (xZ tA tB uA uB j) (fZ tA tB uA uB j) VC SC /\
    admissible (xZ tA tB uA uB j) /\ (false = true -> p_I0 (xZ tA tB uA uB j) <> 0%R).
Proof.
  intros E Sh HA HB UA UB j Vj. rewrite Sh in Vj. split; [apply inputs_after; [now left|apply wZ_good|now apply wZ_inputs]|]. split; [|discriminate].
  revert j Vj. apply idx22; unfold admissible, xZ; cbn [p_t0 p_tex p_tau pick col time nth]; repeat split; lra.
Qed.

(** normal incidence, tau > 0 *)
Theorem C19_refuted : ~ C19_intended.
Proof.
  intros Q. destruct (wZ_calc 0 1 1 0) as (a & Ha & Sa).
  assert (C0 : (0 < cos 0 <= 1)%R) by (rewrite cos_0; lra). pose proof cos1_lt as C1.
  assert (S : forall j, valid_idx (shp (row a 0)) j -> inputs_at (fst (step (wZ 0 1 1 0) (OCalc 0 nil))) 0 j (xZ 0 1 1 0 j) (fZ 0 1 1 0 j) VC SC /\
      admissible (xZ 0 1 1 0 j) /\ (false = true -> p_I0 (xZ 0 1 1 0 j) <> 0%R)) by (apply wZ_all; auto; lra).
  pose proof (flags_after _ _ _ _ _ (wZ_good 0 1 1 0) (wZ_flags 0 1 1 0)) as Fl.
  assert (Vi : valid_idx (shp (row a 0)) (0 :: 0 :: nil)) by (rewrite Sa; repeat constructor).
  destruct (Q _ 0 nil a false VC SC (xZ 0 1 1 0) (fZ 0 1 1 0) (wZ_tidy_calc 0 1 1 0) Ha Fl S (0 :: 0 :: nil) 3 Vi ltac:(lia)) as [v Ev].
  destruct (C19_exact _ 0 nil a false VC SC (xZ 0 1 1 0) (fZ 0 1 1 0) (wZ_tidy_calc 0 1 1 0) Ha Fl S (0 :: 0 :: nil) Vi) as (_ & _ & N & _).
  destruct N as [N _]; [|congruence]. unfold xZ. cbn [p_t0 p_tex p_tau pick col time nth]. split.
  - right; left. apply cos_0.
  - exists (0 :: 0 :: nil). split; [exact Vi|]. unfold xZ. cbn [p_t0 p_tex p_tau pick col time nth]. split; [lra|left; apply cos_0].
Qed.
Print Assumptions C19_refuted.
(** the hypotheses of C19_finite_partial, C19_exact and C16_tau_zero_interaction hold for an object with
    two incidence angles and optical depths 0 and 1 *)
Example C19_nonvacuous : exists w o a V SRF (X : list nat -> point) (Fv : list nat -> string -> R), let w' := fst (step w (OCalc o nil)) in
  tidy w (OCalc o nil) /\ snd (step w (OCalc o nil)) = RetArr a /\ obs_flags w' o true false false /\
  (forall j, valid_idx (shp (row a 0)) j -> inputs_at w' o j (X j) (Fv j) V SRF /\ admissible (X j) /\ (false = true -> p_I0 (X j) <> 0%R) /\
     (cos (p_t0 (X j)) < 1)%R /\ (cos (p_tex (X j)) < 1)%R) /\
  exists i j, valid_idx (shp (row a 0)) i /\ valid_idx (shp (row a 0)) j /\ p_tau (X i) = 0%R /\ (0 < p_tau (X j))%R.
Proof.
  destruct (wZ_calc (1/2) 1 1 0) as (a & Ha & Sa). pose proof cos1_lt as C1.
  assert (C0 : (0 < cos (1/2) < 1)%R).
  { pose proof PI_RGT_0. pose proof PI2_1. split; [apply cos_gt_0; lra|]. assert (L : (cos (1/2) < cos 0)%R) by (apply cos_decreasing_1; lra). rewrite cos_0 in L. exact L. }
  exists (wZ (1/2) 1 1 0), 0, a, VC, SC, (xZ (1/2) 1 1 0), (fZ (1/2) 1 1 0). intros w'.
  split; [apply wZ_tidy_calc|]. split; [exact Ha|]. split; [exact (flags_after _ _ _ _ _ (wZ_good (1/2) 1 1 0) (wZ_flags (1/2) 1 1 0))|]. split.
  - intros j Vj. destruct (wZ_all (1/2) 1 1 0 a Ha Sa) with (j := j) as (S1 & S2 & S3); try lra; [exact Vj|]. split; [exact S1|]. split; [exact S2|]. split; [exact S3|].
    rewrite Sa in Vj. revert j Vj S1 S2 S3. apply (idx22 (fun j => inputs_at w' 0 j _ _ VC SC -> admissible _ -> _ -> (cos (p_t0 (xZ (1/2) 1 1 0 j)) < 1)%R /\ (cos (p_tex (xZ (1/2) 1 1 0 j)) < 1)%R));
      intros _ _ _; unfold xZ; cbn [p_t0 p_tex p_tau pick col time nth]; split; lra.
  - exists (0 :: 1 :: nil), (0 :: 0 :: nil). rewrite Sa. split; [repeat constructor|]. split; [repeat constructor|]. unfold xZ. cbn [p_t0 p_tex p_tau pick col time nth]. split; [reflexivity|lra].
Qed.

Lemma wZ_calc_at tA tB uA uB j : valid_idx (2 :: 2 :: nil) j -> (0 < cos (pick (col j) tA tB) < 1)%R -> (0 < pick (time j) uA uB)%R ->
  exists y1 y2 y3, calc_at (wZ tA tB uA uB) 0 nil j true false false (xZ tA tB uA uB j) (fZ tA tB uA uB j) VC SC y1 y2 y3.
Proof.
  intros Vj Hc Hu. destruct (wZ_calc tA tB uA uB) as (a & Ha & Sa).
  exists (get (row a 1) j), (get (row a 2) j), (get (row a 3) j), a. split; [apply wZ_tidy_calc|]. split; [exact Ha|].
  split; [exact (flags_after _ _ _ _ _ (wZ_good tA tB uA uB) (wZ_flags tA tB uA uB))|].
  split. { apply mode_after; [apply wZ_good|]. eexists. split; [vm_compute; reflexivity|reflexivity]. }
  split; [rewrite Sa; exact Vj|]. split.
  - destruct (inputs_after _ _ _ _ _ _ _ _ (or_introl eq_refl) (wZ_good tA tB uA uB) (wZ_inputs tA tB uA uB j Vj)) as (H1 & H2 & H3 & H4 & H5 & H6 & H7 & H8).
    unfold sample. do 8 (split; [assumption|]). unfold xZ. cbn [p_t0 p_tex p_tau]. auto.
  - split; [apply (wZ_ok tA tB uA uB)|]. split; [apply (wZ_ok tA tB uA uB)|]. split; [discriminate|]. auto.
Qed.
(** an array next to a zero and an array without zeros *)
Example C16_neighbours_nonvacuous : exists w1 w2 y1 y2 y3 z1 z2 z3, let i := 0 :: 0 :: nil in
  let x1 := xZ 1 (1/2) 1 0 i in let f1 := fZ 1 (1/2) 1 0 i in let x2 := xZ 1 (1/3) 1 2 i in let f2 := fZ 1 (1/3) 1 2 i in
  calc_at w1 0 nil i true false false x1 f1 VC SC y1 y2 y3 /\ calc_at w2 0 nil i true false false x2 f2 VC SC z1 z2 z3 /\
  same_fixed (fst (step w1 (OCalc 0 nil))) 0 (fst (step w2 (OCalc 0 nil))) 0 /\
  (forall s, In s ("theta_0" :: "theta_ex" :: "phi_0" :: "phi_ex" :: nil) -> f1 s = f2 s) /\
  same_params f1 f2 VC SC /\ same_numbers x1 x2.
Proof.
  destruct (wZ_calc_at 1 (1/2) 1 0 (0 :: 0 :: nil)) as (y1 & y2 & y3 & H1); [repeat constructor|exact cos1_lt|cbn; lra|].
  destruct (wZ_calc_at 1 (1/3) 1 2 (0 :: 0 :: nil)) as (z1 & z2 & z3 & H2); [repeat constructor|exact cos1_lt|cbn; lra|].
  exists (wZ 1 (1/2) 1 0), (wZ 1 (1/3) 1 2), y1, y2, y3, z1, z2, z3. intros i x1 f1 x2 f2. split; [exact H1|]. split; [exact H2|].
  assert (Nf : forall tA tB uA uB b, obs_fixed (wZ tA tB uA uB) 0 b -> False).
  { intros tA tB uA uB b (r & Hr & F). assert (L : exists r, obj (w_heap (wZ tA tB uA uB)) 0 = Ok r /\ r_fixed r = nil) by (eexists; split; vm_compute; reflexivity).
    destruct L as (r' & L1 & L2). assert (Q : r' = r) by (rewrite L1 in Hr; injection Hr; intros Q; exact Q). clear L1 Hr. subst r'. unfold is_fixed in F. rewrite L2 in F. discriminate. }
  assert (Na : forall tA tB uA uB b, obs_fixed (fst (step (wZ tA tB uA uB) (OCalc 0 nil))) 0 b -> False).
  { intros tA tB uA uB b F. apply (Nf tA tB uA uB b). apply fixed_after; [apply wZ_good|exact F|]. eexists. vm_compute. reflexivity. }
  split. { intros b. split; intros F; exfalso; eapply Na; exact F. }
  split. { intros s Hs. simpl in Hs. repeat (destruct Hs as [<-|Hs]; [reflexivity|]). contradiction. }
  split; [|repeat split; reflexivity].
  intros s [H|H]; simpl in H; repeat (destruct H as [<-|H]; [reflexivity|]); contradiction.
Qed.

Example C19_interaction_method_nonvacuous : exists w o a V SRF (X : list nat -> point) (Fv : list nat -> string -> R) i j, let w' := fst (step w (OInteraction o nil)) in
  tidy w (OInteraction o nil) /\ snd (step w (OInteraction o nil)) = RetArr a /\ obs_flags w' o true false false /\
  (valid_idx (shp a) i /\ inputs_at w' o i (X i) (Fv i) V SRF /\ admissible (X i) /\ (0 < p_tau (X i))%R /\ (cos (p_t0 (X i)) < 1)%R /\ (cos (p_tex (X i)) < 1)%R) /\
  (valid_idx (shp a) j /\ inputs_at w' o j (X j) (Fv j) V SRF /\ admissible (X j) /\ p_tau (X j) = 0%R).
Proof.
  pose proof cos1_lt as C1.
  assert (A : is_arr (snd (step (wZ 1 1 1 0) (OInteraction 0 nil))) = true /\ match snd (step (wZ 1 1 1 0) (OInteraction 0 nil)) with RetArr a => shp a | _ => nil end = 2 :: 2 :: nil)
    by (split; vm_compute; reflexivity).
  destruct A as [A B]. destruct (is_arr_ex _ A) as [a Ha]. rewrite Ha in B. clear A.
  assert (T : tidy (wZ 1 1 1 0) (OInteraction 0 nil)) by (apply wZ_tidy; [intros []|exact I|intros; apply adm_nil]).
  pose proof (tidy_good _ _ T) as G.
  exists (wZ 1 1 1 0), 0, a, VC, SC, (xZ 1 1 1 0), (fZ 1 1 1 0), (0 :: 0 :: nil), (0 :: 1 :: nil). intros w'.
  split; [exact T|]. split; [exact Ha|]. split.
  { destruct (wZ_flags 1 1 1 0) as (r & Hr & F). destruct (inter_state _ 0 r G Hr) as (r' & R1 & R2 & _). destruct (strip_fields _ _ R2) as (_ & _ & _ & _ & _ & _ & Q1 & Q2 & Q3).
    exists r'. split; [exact R1|]. clear - F Q1 Q2 Q3. intuition congruence. }
  rewrite B. split.
  - split; [repeat constructor|]. split; [apply inputs_after; [now right|exact G|apply wZ_inputs; repeat constructor]|].
    unfold admissible, xZ; cbn [p_t0 p_tex p_tau pick col time nth]. repeat split; lra.
  - split; [repeat constructor|]. split; [apply inputs_after; [now right|exact G|apply wZ_inputs; repeat constructor]|].
    unfold admissible, xZ; cbn [p_t0 p_tex p_tau pick col time nth]. repeat split; lra.
Qed.
