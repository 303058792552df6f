(** A second family of states for C72: the states of Wit4 with omega = 2/3 (instead of 1/3) and
    NormBRDF = 3/4 (instead of 1/4). *)
From Coquelicot Require Import Coquelicot.
From Coq Require Import Lia List.
From Verif Require Import SpecScat SpecExp SpecInt Flip.
From Verif Require Export Properties6.
Open Scope string_scope.
Open Scope nat_scope.
Open Scope list_scope.

Section Wit.
Context (g : mode) (t0 tex p0 pex : R).
Definition histS : list op :=
  ONewScat VC :: ONewScat SC :: ONew (Some 0) (Some 1) true false false None None (PNum (Fin 2)) ::
  ONewArr (arr2 (1/2) t0) :: ONewArr (arr2 (1/2) tex) :: ONewArr (arr2 (1/2) 1) ::
  match g with
  | Mono => OSetMono 0 None :: OSetGeometry 0 (("t_0", Some (PArr 0)) :: ("p_0", Some (PNum (Fin p0))) :: nil) :: nil
  | Bi => OSetBi 0 None None None None :: OSetGeometry 0 (("t_0", Some (PArr 0)) :: ("t_ex", Some (PArr 1)) ::
      ("p_0", Some (PNum (Fin p0))) :: ("p_ex", Some (PNum (Fin pex))) :: nil) :: nil
  | BiFix => OSetBi 0 None None None (Some (FNum 0)) :: OSetGeometry 0 (("t_0", Some (PArr 0)) :: ("t_ex", Some (PArr 1)) ::
      ("p_0", Some (PNum (Fin p0))) :: nil) :: nil
  end ++
  OUpdate 0 (("tau", PArr 2) :: ("omega", PNum (Fin (2/3))) :: ("NormBRDF", PNum (Fin (3/4))) :: ("t", PNum (Fin (1/4))) :: nil) :: nil.
Definition wS : world := fst (run (init true true) histS).
Definition fS (s : string) : R :=
  if String.eqb s "theta_0" then t0 else if String.eqb s "theta_ex" then (t1C g t0 tex) else if String.eqb s "phi_0" then p0
  else if String.eqb s "phi_ex" then (p1C g p0 pex) else if String.eqb s "t" then 1/4 else if String.eqb s "tau" then 1
  else if String.eqb s "omega" then 2/3 else if String.eqb s "bsf" then 0 else 3/4.
Definition xS : point := mk_point 2 t0 (t1C g t0 tex) 1 (2/3) (3/4) 0 (phase_value fS VC) (phase_value fS SC).

End Wit.
Section WitFacts.
Context (g : mode) (t0 tex p0 pex : R).
Notation W := (wS g t0 tex p0 pex).
Notation F := (fS g t0 tex p0 pex).
Notation X := (xS g t0 tex p0 pex).
Lemma wS_obs p : match p with OSurface 0 nil | OVolume 0 nil | OInteraction 0 nil => true | _ => false end = true ->
  exists a, snd (step W p) = RetArr a /\ shp a = 2 :: nil.
Proof.
  intros Hp.
  assert (A : is_arr (snd (step W p)) = true /\ match snd (step W p) with RetArr a => shp a | _ => nil end = 2 :: nil).
  { destruct p as [| | | | | | | | | | | | | | |o kw|o kw|o kw| | | | | | | | | |]; try discriminate Hp; try (destruct o; [|discriminate Hp]; destruct kw; [|discriminate Hp]); destruct g; split; vm_compute; reflexivity. }
  destruct A as [A B]. destruct (is_arr_ex _ A) as [a Ha]. exists a. split; [exact Ha|]. now rewrite Ha in B.
Qed.
Lemma wS_tidy p : ~ reassigns p -> num_arg p -> (forall J h, adm1 J h p) -> tidy W p.
Proof.
  intros N A H. exists true, (histS g t0 tex p0 pex). split; [|split; [|reflexivity]].
  - destruct g; unfold histS; cbn [app]; repeat (split; [try exact I|]); try exact I; try apply H; intros [].
  - destruct g; unfold histS; cbn [app]; repeat (constructor; [split; [first [exact N|intros []]|first [exact A|exact I|discriminate|repeat split; discriminate]]|]); constructor.
Qed.
Lemma wS_good : good W (OCalc 0 nil).
Proof. apply tidy_good, wS_tidy; [intros []|exact I|intros; apply adm_nil]. Qed.
Ltac obs_num2 H := match type of H with
  | ?lhs = RetArr ?a => match goal with |- _ = ?v => let E := fresh in
      assert (E : match lhs with RetArr b => bget b (1 :: nil) | _ => NaN end = v) by (vm_compute; reflexivity);
      rewrite H in E; exact E end
  end.
Lemma wS_named : named W 0 (1 :: nil) F.
Proof.
  unfold named, obs_angle. repeat split.
  1-4: unfold fS, t1C, p1C; cbn [String.eqb Ascii.eqb Bool.eqb]; destruct g; intros a H; obs_num2 H.
  intros d k a H Hk.
  assert (E : match snd (step W (OParamDict 0)) with RetDict d => map (fun kv => (fst kv, bget (snd kv) (1 :: nil))) d | _ => nil end
    = ("bsf", Fin 0%R) :: ("tau", Fin 1%R) :: ("omega", Fin (2/3)) :: ("NormBRDF", Fin (3/4)) :: ("t", Fin (1/4)) :: nil) by (destruct g; vm_compute; reflexivity).
  rewrite H in E. clear H.
  assert (M : dget (map (fun kv => (fst kv, bget (snd kv) (1 :: nil))) d) k = Some (bget a (1 :: nil))).
  { clear E. induction d as [|[k' v] d IH]; [discriminate|]. simpl in *. destruct (String.eqb k k'); [injection Hk as ->; reflexivity|auto]. }
  rewrite E in M. clear E Hk. cbn [dget] in M. unfold fS.
  destruct (String.eqb_spec k "bsf") as [->|]; [injection M as <-; reflexivity|].
  destruct (String.eqb_spec k "tau") as [->|]; [injection M as <-; reflexivity|].
  destruct (String.eqb_spec k "omega") as [->|]; [injection M as <-; reflexivity|].
  destruct (String.eqb_spec k "NormBRDF") as [->|]; [injection M as <-; reflexivity|].
  destruct (String.eqb_spec k "t") as [->|]; [injection M as <-; reflexivity|]. discriminate.
Qed.
Lemma wS_fun : obs_fun W 0 WV VC /\ obs_fun W 0 WSRF SC.
Proof. destruct g; split; (eexists; split; [vm_compute; reflexivity|reflexivity]). Qed.
Lemma wS_ok : ok_scat F VC /\ ok_scat F SC.
Proof.
  split; simpl; unfold ok_t, ok_a, wd_a; simpl; unfold fS; simpl; rewrite ?Q2R_1', ?Q2R_Z;
  repeat split; try exact I; try (apply Rabs_def1; lra); apply Rabs_le; lra.
Qed.
Lemma wS_point : at_point W 0 (1 :: nil) X.
Proof.
  unfold at_point.
  split. { intros a (r & Hr & Ha).
    assert (E : match obj (w_heap W) 0 with Ok r => match deref (w_heap W) (r_I0 r) with Ok b => bget b (1 :: nil) | _ => NaN end | _ => NaN end = Fin 2%R)
      by (destruct g; vm_compute; reflexivity). rewrite Hr, Ha in E. exact E. }
  unfold obs_angle, obs_param, xS. cbn [p_I0 p_t0 p_tex p_tau p_omega p_norm p_bsfr p_vol p_brdf]. unfold t1C, p1C.
  split; [intros a H; destruct g; obs_num2 H|].
  split; [intros a H; destruct g; obs_num2 H|].
  split; [intros a H; destruct g; obs_num2 H|].
  split; [intros a H; destruct g; obs_num2 H|].
  split; [intros a H; destruct g; obs_num2 H|].
  split; [intros a H; destruct g; obs_num2 H|].
  split; intros a H.
  - apply (C48_documented_phase_functions W (OCalc 0 nil) 0 WV _ a (1 :: nil) F wS_good H); [|apply wS_named|apply wS_ok]. apply wS_fun.
  - apply (C48_documented_phase_functions W (OCalc 0 nil) 0 WSRF _ a (1 :: nil) F wS_good H); [|apply wS_named|apply wS_ok]. apply wS_fun.
Qed.
Lemma wS_usable : usable F VC /\ usable F SC.
Proof.
  split; (split; [simpl; intros s H; repeat (destruct H as [<-|H]); try contradiction; intros Z; repeat (destruct Z as [Z|Z]; [discriminate Z|]); exact Z|]);
  (split; [|exists 2; split; [reflexivity|lia]]); (split; [|constructor]); (constructor; [|constructor]); simpl; unfold wd_a; simpl; auto.
Qed.
Lemma wS_flat : flat W 0.
Proof.
  unfold flat, obs_angle, obs_param. exists 1. split; [|split; [|split; [|now left]]].
  - intros b a H. assert (E : match snd (step W (OReadAngle 0 b)) with RetArr a => length (shp a) <=? 1 | _ => false end = true) by (destruct g, b; vm_compute; reflexivity).
    rewrite H in E. now apply Nat.leb_le.
  - intros a H. assert (E : match snd (step W (OReadParam 0 Tau)) with RetArr a => length (shp a) <=? 1 | _ => false end = true) by (destruct g; vm_compute; reflexivity).
    rewrite H in E. now apply Nat.leb_le.
  - intros d k a H Hk. assert (E : match snd (step W (OParamDict 0)) with RetDict d => forallb (fun kv => length (shp (snd kv)) <=? 1) d | _ => false end = true) by (destruct g; vm_compute; reflexivity).
    rewrite H in E. rewrite forallb_forall in E. apply Nat.leb_le. exact (E _ Hk).
Qed.
Lemma wS_own : own_fn W 0.
Proof. destruct g; (eexists; split; [vm_compute; reflexivity|split; reflexivity]). Qed.
Hypothesis (C0 : (0 < cos t0 < 1)%R) (C1 : (0 < cos tex < 1)%R).
Lemma wS_sample : sample W 0 (1 :: nil) X F VC SC.
Proof.
  split; [apply wS_point|]. split; [apply wS_named|]. split; [apply wS_fun|]. split; [apply wS_fun|].
  split; [apply wS_usable|]. split; [apply wS_usable|]. split; [apply wS_flat|]. split; [apply wS_own|].
  unfold xS, t1C. cbn [p_t0 p_tex p_tau]. split; [exact C0|]. split; [destruct g; assumption|lra].
Qed.
Lemma wS_flags : obs_flags W 0 true false false /\ obs_mode W 0 (is_mono g).
Proof. destruct g; split; (eexists; split; [vm_compute; reflexivity|auto]). Qed.
Lemma wS_fixed b : obs_fixed W 0 b <-> g = BiFix /\ b = PEx.
Proof.
  assert (E : match obj (w_heap W) 0 with Ok r => r_fixed r | _ => nil end = match g with BiFix => PEx :: nil | _ => nil end) by (destruct g; vm_compute; reflexivity).
  assert (Z : exists r, obj (w_heap W) 0 = Ok r) by (destruct g; eexists; vm_compute; reflexivity).
  destruct Z as [r Hr]. rewrite Hr in E. split.
  - intros (r' & Hr' & Y). rewrite Hr in Hr'. injection Hr' as <-. unfold is_fixed in Y. rewrite E in Y. destruct g; try discriminate Y.
    destruct b; try discriminate Y; auto.
  - intros [-> ->]. exists r. split; [exact Hr|]. unfold is_fixed. now rewrite E.
Qed.
  Lemma wS_calc : exists y1 y2 y3, calc_at W 0 nil (1 :: nil) (is_mono g) false false X F VC SC y1 y2 y3.
  Proof.
    pose proof wS_good as G.
    destruct (wS_obs (OSurface 0 nil) eq_refl) as (s & Es & Ss).
    destruct (wS_obs (OVolume 0 nil) eq_refl) as (v & Ev & Sv).
    destruct (wS_obs (OInteraction 0 nil) eq_refl) as (ii & Ei & Si).
    assert (T : exists tau, obs_param W 0 Tau tau /\ shp tau <> nil).
    { unfold obs_param. assert (A : is_arr (snd (step W (OReadParam 0 Tau))) = true /\ match snd (step W (OReadParam 0 Tau)) with RetArr a => shp a | _ => nil end = 2 :: nil) by (destruct g; split; vm_compute; reflexivity).
      destruct A as [A B]. destruct (is_arr_ex _ A) as [a Ha]. exists a. split; [exact Ha|]. rewrite Ha in B. rewrite B. discriminate. }
    destruct T as (tau & Ht & Nt).
    destruct (calc_exists W 0 s v ii tau G Es Ev Ei Ht Nt) as (a & Ha & Sa); [congruence..|].
    exists (get (row a 1) (1 :: nil)), (get (row a 2) (1 :: nil)), (get (row a 3) (1 :: nil)), a.
    split; [apply wS_tidy; [intros []|exact I|intros; apply adm_nil]|]. split; [exact Ha|].
    split; [apply flags_after; [exact G|apply wS_flags]|]. split; [apply mode_after; [exact G|apply wS_flags]|].
    split; [rewrite Sa, Ss; repeat constructor; lia|]. split; [apply sample_after; [exact G|now apply wS_sample]|].
    split; [apply wS_ok|]. split; [apply wS_ok|]. split; [discriminate|]. auto.
  Qed.
  Lemma wS_nofix : g <> BiFix -> forall b, ~ obs_fixed (fst (step W (OCalc 0 nil))) 0 b.
  Proof.
    intros N b H. apply fixed_after in H; [|apply wS_good|destruct g; eexists; vm_compute; reflexivity]. apply wS_fixed in H. destruct H as [H _]. contradiction.
  Qed.
End WitFacts.
