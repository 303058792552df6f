(** States used as witnesses for the interaction contribution. *)
From Coquelicot Require Import Coquelicot.
From Coq Require Import Lia List.
From Verif Require Import SpecScat SpecExp SpecInt Flip.
From Verif Require Export After.
Open Scope string_scope.
Open Scope nat_scope.
Open Scope list_scope.

Notation VC := (VHG (ESym "t") (Some 2) a_vol).
Notation SC := (SHG (ESym "t") (Some 2) a_srf).
(** monostatic; bistatic; bistatic with p_ex fixed at 0 *)
Inductive mode := Mono | Bi | BiFix.
Definition is_mono (g : mode) : bool := match g with Mono => true | _ => false end.
Definition arr2 (a b : R) : nd xr := mk_nd (2 :: nil) (fun i => Fin (match i with 0 :: nil => a | _ => b end)).

Section Wit.
Context (g : mode) (t0 tex p0 pex : R).
Definition t1C := match g with Mono => t0 | _ => tex end.
Definition p1C := match g with Mono => (p0 + PI)%R | Bi => pex | BiFix => Q2R 0 end.
(** Henyey-Greenstein volume and surface, arrays of two incidence angles, exit angles and optical depths *)
Definition histC : list op :=
  ONewScat VC :: ONewScat SC :: ONew (Some 0) (Some 1) true false false None None (PNum (Fin 2)) ::
  ONewArr (arr2 (1/2) t0) :: ONewArr (arr2 (1/2) tex) :: ONewArr (arr2 (1/2) 1) ::
  match g with
  | Mono => OSetMono 0 None :: OSetGeometry 0 (("t_0", Some (PArr 0)) :: ("p_0", Some (PNum (Fin p0))) :: nil) :: nil
  | Bi => OSetBi 0 None None None None :: OSetGeometry 0 (("t_0", Some (PArr 0)) :: ("t_ex", Some (PArr 1)) ::
      ("p_0", Some (PNum (Fin p0))) :: ("p_ex", Some (PNum (Fin pex))) :: nil) :: nil
  | BiFix => OSetBi 0 None None None (Some (FNum 0)) :: OSetGeometry 0 (("t_0", Some (PArr 0)) :: ("t_ex", Some (PArr 1)) ::
      ("p_0", Some (PNum (Fin p0))) :: nil) :: nil
  end ++
  OUpdate 0 (("tau", PArr 2) :: ("omega", PNum (Fin (1/3))) :: ("NormBRDF", PNum (Fin (1/4))) :: ("t", PNum (Fin (1/4))) :: nil) :: nil.
Definition wC : world := fst (run (init true true) histC).
Definition fC (s : string) : R :=
  if String.eqb s "theta_0" then t0 else if String.eqb s "theta_ex" then t1C else if String.eqb s "phi_0" then p0
  else if String.eqb s "phi_ex" then p1C else if String.eqb s "t" then 1/4 else if String.eqb s "tau" then 1
  else if String.eqb s "omega" then 1/3 else if String.eqb s "bsf" then 0 else 1/4.
Definition xC : point := mk_point 2 t0 t1C 1 (1/3) (1/4) 0 (phase_value fC VC) (phase_value fC SC).

End Wit.
Section WitFacts.
Context (g : mode) (t0 tex p0 pex : R).
Notation W := (wC g t0 tex p0 pex).
Notation F := (fC g t0 tex p0 pex).
Notation X := (xC g t0 tex p0 pex).
Lemma wC_obs p : match p with OSurface 0 nil | OVolume 0 nil | OInteraction 0 nil => true | _ => false end = true ->
  exists a, snd (step W p) = RetArr a /\ shp a = 2 :: nil.
Proof.
  intros Hp.
  assert (A : is_arr (snd (step W p)) = true /\ match snd (step W p) with RetArr a => shp a | _ => nil end = 2 :: nil).
  { destruct p as [| | | | | | | | | | | | | | |o kw|o kw|o kw| | | | | | | | | |]; try discriminate Hp; try (destruct o; [|discriminate Hp]; destruct kw; [|discriminate Hp]); destruct g; split; vm_compute; reflexivity. }
  destruct A as [A B]. destruct (is_arr_ex _ A) as [a Ha]. exists a. split; [exact Ha|]. now rewrite Ha in B.
Qed.
Lemma wC_tidy p : ~ reassigns p -> num_arg p -> (forall J h, adm1 J h p) -> tidy W p.
Proof.
  intros N A H. exists true, (histC g t0 tex p0 pex). split; [|split; [|reflexivity]].
  - destruct g; unfold histC; cbn [app]; repeat (split; [try exact I|]); try exact I; try apply H; intros [].
  - destruct g; unfold histC; cbn [app]; repeat (constructor; [split; [first [exact N|intros []]|first [exact A|exact I|discriminate|repeat split; discriminate]]|]); constructor.
Qed.
Lemma wC_good : good W (OCalc 0 nil).
Proof. apply tidy_good, wC_tidy; [intros []|exact I|intros; apply adm_nil]. Qed.
Ltac obs_num2 H := match type of H with
  | ?lhs = RetArr ?a => match goal with |- _ = ?v => let E := fresh in
      assert (E : match lhs with RetArr b => bget b (1 :: nil) | _ => NaN end = v) by (vm_compute; reflexivity);
      rewrite H in E; exact E end
  end.
Lemma wC_named : named W 0 (1 :: nil) F.
Proof.
  unfold named, obs_angle. repeat split.
  1-4: unfold fC, t1C, p1C; cbn [String.eqb Ascii.eqb Bool.eqb]; destruct g; intros a H; obs_num2 H.
  intros d k a H Hk.
  assert (E : match snd (step W (OParamDict 0)) with RetDict d => map (fun kv => (fst kv, bget (snd kv) (1 :: nil))) d | _ => nil end
    = ("bsf", Fin 0%R) :: ("tau", Fin 1%R) :: ("omega", Fin (1/3)) :: ("NormBRDF", Fin (1/4)) :: ("t", Fin (1/4)) :: nil) by (destruct g; vm_compute; reflexivity).
  rewrite H in E. clear H.
  assert (M : dget (map (fun kv => (fst kv, bget (snd kv) (1 :: nil))) d) k = Some (bget a (1 :: nil))).
  { clear E. induction d as [|[k' v] d IH]; [discriminate|]. simpl in *. destruct (String.eqb k k'); [injection Hk as ->; reflexivity|auto]. }
  rewrite E in M. clear E Hk. cbn [dget] in M. unfold fC.
  destruct (String.eqb_spec k "bsf") as [->|]; [injection M as <-; reflexivity|].
  destruct (String.eqb_spec k "tau") as [->|]; [injection M as <-; reflexivity|].
  destruct (String.eqb_spec k "omega") as [->|]; [injection M as <-; reflexivity|].
  destruct (String.eqb_spec k "NormBRDF") as [->|]; [injection M as <-; reflexivity|].
  destruct (String.eqb_spec k "t") as [->|]; [injection M as <-; reflexivity|]. discriminate.
Qed.
Lemma wC_fun : obs_fun W 0 WV VC /\ obs_fun W 0 WSRF SC.
Proof. destruct g; split; (eexists; split; [vm_compute; reflexivity|reflexivity]). Qed.
Lemma wC_ok : ok_scat F VC /\ ok_scat F SC.
Proof.
  split; simpl; unfold ok_t, ok_a, wd_a; simpl; unfold fC; simpl; rewrite ?Q2R_1', ?Q2R_Z;
  repeat split; try exact I; try (apply Rabs_def1; lra); apply Rabs_le; lra.
Qed.
Lemma wC_point : at_point W 0 (1 :: nil) X.
Proof.
  unfold at_point.
  split. { intros a (r & Hr & Ha).
    assert (E : match obj (w_heap W) 0 with Ok r => match deref (w_heap W) (r_I0 r) with Ok b => bget b (1 :: nil) | _ => NaN end | _ => NaN end = Fin 2%R)
      by (destruct g; vm_compute; reflexivity). rewrite Hr, Ha in E. exact E. }
  unfold obs_angle, obs_param, xC. cbn [p_I0 p_t0 p_tex p_tau p_omega p_norm p_bsfr p_vol p_brdf]. unfold t1C, p1C.
  split; [intros a H; destruct g; obs_num2 H|].
  split; [intros a H; destruct g; obs_num2 H|].
  split; [intros a H; destruct g; obs_num2 H|].
  split; [intros a H; destruct g; obs_num2 H|].
  split; [intros a H; destruct g; obs_num2 H|].
  split; [intros a H; destruct g; obs_num2 H|].
  split; intros a H.
  - apply (C48_documented_phase_functions W (OCalc 0 nil) 0 WV _ a (1 :: nil) F wC_good H); [|apply wC_named|apply wC_ok]. apply wC_fun.
  - apply (C48_documented_phase_functions W (OCalc 0 nil) 0 WSRF _ a (1 :: nil) F wC_good H); [|apply wC_named|apply wC_ok]. apply wC_fun.
Qed.
Lemma wC_usable : usable F VC /\ usable F SC.
Proof.
  split; (split; [simpl; intros s H; repeat (destruct H as [<-|H]); try contradiction; intros Z; repeat (destruct Z as [Z|Z]; [discriminate Z|]); exact Z|]);
  (split; [|exists 2; split; [reflexivity|lia]]); (split; [|constructor]); (constructor; [|constructor]); simpl; unfold wd_a; simpl; auto.
Qed.
Lemma wC_flat : flat W 0.
Proof.
  unfold flat, obs_angle, obs_param. exists 1. split; [|split; [|split; [|now left]]].
  - intros b a H. assert (E : match snd (step W (OReadAngle 0 b)) with RetArr a => length (shp a) <=? 1 | _ => false end = true) by (destruct g, b; vm_compute; reflexivity).
    rewrite H in E. now apply Nat.leb_le.
  - intros a H. assert (E : match snd (step W (OReadParam 0 Tau)) with RetArr a => length (shp a) <=? 1 | _ => false end = true) by (destruct g; vm_compute; reflexivity).
    rewrite H in E. now apply Nat.leb_le.
  - intros d k a H Hk. assert (E : match snd (step W (OParamDict 0)) with RetDict d => forallb (fun kv => length (shp (snd kv)) <=? 1) d | _ => false end = true) by (destruct g; vm_compute; reflexivity).
    rewrite H in E. rewrite forallb_forall in E. apply Nat.leb_le. exact (E _ Hk).
Qed.
Lemma wC_own : own_fn W 0.
Proof. destruct g; (eexists; split; [vm_compute; reflexivity|split; reflexivity]). Qed.
Hypothesis (C0 : (0 < cos t0 < 1)%R) (C1 : (0 < cos tex < 1)%R).
Lemma wC_sample : sample W 0 (1 :: nil) X F VC SC.
Proof.
  split; [apply wC_point|]. split; [apply wC_named|]. split; [apply wC_fun|]. split; [apply wC_fun|].
  split; [apply wC_usable|]. split; [apply wC_usable|]. split; [apply wC_flat|]. split; [apply wC_own|].
  unfold xC, t1C. cbn [p_t0 p_tex p_tau]. split; [exact C0|]. split; [destruct g; assumption|lra].
Qed.
Lemma wC_flags : obs_flags W 0 true false false /\ obs_mode W 0 (is_mono g).
Proof. destruct g; split; (eexists; split; [vm_compute; reflexivity|auto]). Qed.
Lemma wC_fixed b : obs_fixed W 0 b <-> g = BiFix /\ b = PEx.
Proof.
  assert (E : match obj (w_heap W) 0 with Ok r => r_fixed r | _ => nil end = match g with BiFix => PEx :: nil | _ => nil end) by (destruct g; vm_compute; reflexivity).
  assert (Z : exists r, obj (w_heap W) 0 = Ok r) by (destruct g; eexists; vm_compute; reflexivity).
  destruct Z as [r Hr]. rewrite Hr in E. split.
  - intros (r' & Hr' & Y). rewrite Hr in Hr'. injection Hr' as <-. unfold is_fixed in Y. rewrite E in Y. destruct g; try discriminate Y.
    destruct b; try discriminate Y; auto.
  - intros [-> ->]. exists r. split; [exact Hr|]. unfold is_fixed. now rewrite E.
Qed.
End WitFacts.
Lemma cos1_lt : (0 < cos 1 < 1)%R.
Proof. split; [apply cos1_pos|]. apply (Rlt_le_trans _ (cos 0)); [|rewrite cos_0; lra]. apply cos_decreasing_1; pose proof PI_RGT_0; pose proof PI2_1; lra. Qed.
