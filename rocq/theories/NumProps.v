(** Proofs about the numbers returned by the direct contributions. *)
From Verif Require Export NumApi.
Open Scope nat_scope.

(** ** dB arithmetic *)
(** 10 ** (x / 10) *)
Definition pow10 (x : xr) : xr :=
  match x with Fin r => Fin (Rpower 10 (r / 10)) | PInf => PInf | NInf => Fin 0%R | NaN => NaN end.
(** a value in dB that is the level of a finite intensity (-inf dB: intensity 0) *)
Definition level (x : xr) : Prop := match x with Fin _ | NInf => True | _ => False end.

Lemma level_inv v : level (xmul (Fin 10%R) (xlog10 v)) ->
  exists r, v = Fin r /\ (0 <= r)%R /\ pow10 (xmul (Fin 10%R) (xlog10 v)) = Fin r.
Proof.
  pose proof ln10_pos as L. destruct v as [r| | |].
  - destruct (Rlt_dec 0 r) as [Hr|Hr].
    + intros _. exists r. split; [reflexivity|]. split; [lra|]. rewrite xlog10_Fin by assumption. simpl. f_equal.
      replace (10 * (ln r / ln 10) / 10)%R with (ln r / ln 10)%R by (field; lra).
      unfold Rpower. replace (ln r / ln 10 * ln 10)%R with (ln r) by (field; lra). now apply exp_ln.
    + destruct (Rlt_dec r 0) as [Hn|Hn].
      * unfold xlog10, xlog. destruct (Rlt_dec 0 r); [contradiction|]. destruct (Rlt_dec r 0); [|contradiction]. simpl. tauto.
      * assert (r = 0%R) by lra. subst r. intros _. exists 0%R. split; [reflexivity|]. split; [lra|].
        rewrite xlog10_0. simpl. rewrite rsign_pos by lra. reflexivity.
  - unfold xlog10. simpl. destruct (Rlt_dec (ln 10) 0); simpl; [|rewrite rsign_pos by lra; simpl; tauto].
    exfalso; lra.
  - unfold xlog10. simpl. tauto.
  - unfold xlog10. simpl. tauto.
Qed.
Lemma level_of r : (0 <= r)%R -> pow10 (xmul (Fin 10%R) (xlog10 (Fin r))) = Fin r.
Proof.
  intros H. destruct (level_inv (Fin r)) as (r' & E & _ & X); [|congruence].
  destruct (Rlt_dec 0 r).
  - rewrite xlog10_Fin by assumption. exact I.
  - replace r with 0%R by lra. rewrite xlog10_0. simpl. rewrite rsign_pos by lra. exact I.
Qed.
Lemma xmul_fin_inv a k r : xmul a k = Fin r -> exists x y, a = Fin x /\ k = Fin y.
Proof.
  destruct a as [x| | |], k as [y| | |]; simpl; intros H; try discriminate; eauto;
    destruct (rsign _); discriminate.
Qed.
Lemma xadd_fin_inv a k r : xadd a k = Fin r -> exists x y, a = Fin x /\ k = Fin y.
Proof. destruct a as [x| | |], k as [y| | |]; simpl; intros H; try discriminate; eauto. Qed.

Definition cfac (sig0 : bool) (i0 mu0 : xr) : xr := if sig0 then xdiv (xmul (Fin (4 * PI)) mu0) i0 else Fin 1%R.
Lemma x_convert_lin sg i0 mu0 v : x_convert sg false i0 mu0 v = xmul v (cfac sg i0 mu0).
Proof. reflexivity. Qed.
Lemma x_convert_dB sg i0 mu0 v : x_convert sg true i0 mu0 v = xmul (Fin 10%R) (xlog10 (xmul v (cfac sg i0 mu0))).
Proof. reflexivity. Qed.

Lemma mu0_el C mu0 t0 i : p_read C T0 = Ok t0 -> p_mu0 C = Ok mu0 -> bget mu0 i = xcos (bget t0 i).
Proof. unfold p_mu0. intros -> H. inversion H. reflexivity. Qed.
Lemma mu0_read C mu0 : p_mu0 C = Ok mu0 -> exists t0, p_read C T0 = Ok t0.
Proof. unfold p_mu0. destruct (p_read C T0); simpl; [eauto|discriminate]. Qed.
Lemma muex_el C mu0 t0 i : p_read C TEx = Ok t0 -> p_muex C = Ok mu0 -> bget mu0 i = xcos (bget t0 i).
Proof. unfold p_muex. intros -> H. inversion H. reflexivity. Qed.
Lemma muex_read C mu0 : p_muex C = Ok mu0 -> exists t0, p_read C TEx = Ok t0.
Proof. unfold p_muex. destruct (p_read C TEx); simpl; [eauto|discriminate]. Qed.

(** rows of a result with first axis n *)
Lemma row_shp a s n k : shp a = s ++ [n] -> shp (row a k) = s.
Proof. intros H. unfold row. cbn [shp]. now rewrite H, removelast_last. Qed.
Lemma nrows_eq a s n : shp a = s ++ [n] -> nrows a = n.
Proof. intros H. unfold nrows. now rewrite H, last_last. Qed.

(** the finite conversion factor *)
Lemma cfac_fin sg i0 mu0 : (sg = true -> (exists r, r <> 0%R /\ i0 = Fin r) /\ is_fin mu0) -> is_fin (cfac sg i0 mu0).
Proof.
  intros H. unfold cfac. destruct sg; [|exists 1%R; reflexivity]. destruct (H eq_refl) as [(r & Hr & ->) [m ->]].
  simpl xmul. rewrite xdiv_Fin by assumption. eexists; reflexivity.
Qed.

Section CalcFacts.
  Context (w : world) (q : op) (o : nat) (C : config) (fe : res (option compiled)) (a : nd xr).
  Hypothesis (Hg : good w q).
  Hypothesis (Hc : at_conf w o C fe).

  Lemma c_angle x t : obs_angle w o x t <-> p_read C x = Ok t.
  Proof. destruct Hc as (r & Hr & -> & _). eapply obs_angle_conf; eassumption. Qed.
  Lemma c_param x t : obs_param w o x t <-> p_val C x = Ok t.
  Proof. destruct Hc as (r & Hr & -> & _). eapply obs_param_conf; eassumption. Qed.
  Lemma c_I0_obs t : obs_I0 w o t <-> c_I0 C = Ok t.
  Proof. destruct Hc as (r & Hr & -> & _). eapply obs_I0_conf; eassumption. Qed.
  Lemma c_scat x t : obs_scat w o x t <-> p_scat C x = Ok t.
  Proof. destruct Hc as (r & Hr & -> & _). eapply obs_scat_conf; eassumption. Qed.
  Lemma c_dict d : snd (step w (OParamDict o)) = RetDict d <-> p_params C = Ok d.
  Proof. destruct Hc as (r & Hr & -> & _). eapply obs_dict_conf; eassumption. Qed.
End CalcFacts.

(** plain numbers *)
Lemma p_eval_num h r p x : p_eval (conf h r) p = Ok (x, true) -> shp x = [].
Proof.
  unfold p_eval. assert (Hd : forall e, p_call (conf h r) p e = Ok (x, true) -> shp x = []).
  { intros e H. unfold p_call in H. destruct (lambdify _ _ _ _) as [f|]; [cbn [rbind] in H|discriminate].
    destruct (rbind (rmap _ _) _) as [y|] eqn:Ey.
    - destruct (c_be f); [|inversion H]. inversion H; subst x. destruct (shp y); [reflexivity|discriminate].
    - destruct (filter _ _); discriminate. }
  cbn [c_def conf]. unfold cdef_of. destruct (r_def r p) as [e|e|v]; try apply Hd.
  destruct v; simpl; [intros H; inversion H; reflexivity|].
  destruct (nth_error _ _); simpl; intros H; inversion H.
Qed.
Lemma p_convert_total C v i0 mu0 : c_I0 C = Ok i0 -> p_mu0 C = Ok mu0 -> ble (shp i0) (shp v) -> ble (shp mu0) (shp v) ->
  exists a, p_convert C v = Ok a.
Proof.
  intros Hi Hm B1 B2. unfold p_convert. destruct (c_sig0 C).
  - rewrite Hm, Hi. cbn [rbind]. apply k_convert_total. auto.
  - apply k_convert_total. discriminate.
Qed.

(** ** Concrete histories used as non-vacuity witnesses *)
Open Scope string_scope.
Open Scope list_scope.
(** HG volume with symbol t, isotropic surface, two incidence angles, tau an array *)
Definition histA (iq sg db : bool) : list op :=
  [ ONewScat (VHG (ESym "t") (Some 2) a_vol); ONewScat (SIso a_srf);
    ONew (Some 0) (Some 1) iq sg db None None (PNum (Fin 2));
    ONewArr (mk_nd [2] (fun i => Fin (match i with [0] => 1/2 | _ => 1 end)));
    OSetGeometry 0 [("t_0", Some (PArr 0)); ("p_0", Some (PNum (Fin 0)))];
    OUpdate 0 [("tau", PArr 0); ("omega", PNum (Fin (1/3))); ("NormBRDF", PNum (Fin (1/4))); ("t", PNum (Fin (1/4)))] ].
Definition wA (iq sg db : bool) : world := fst (run (init true true) (histA iq sg db)).
Definition is_arr (x : out) : bool := match x with RetArr _ => true | _ => false end.
Lemma is_arr_ex x : is_arr x = true -> exists a, x = RetArr a.
Proof. destruct x; try discriminate. eauto. Qed.
Lemma wA_good iq sg db p : (forall J h, adm1 J h p) -> good (wA iq sg db) p.
Proof.
  intros H. exists true, (histA iq sg db). split; [|reflexivity].
  unfold histA. cbn [app]. repeat (split; [try exact I|]); try exact I; try apply H. intros [].
Qed.
