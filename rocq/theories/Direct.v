(** What calc(), surface(), volume() and interaction() return, element by element. *)
From Verif Require Export XrAlg Shape Api.
Open Scope nat_scope.

Lemma p_handle_Ok C x a : p_handle C x = Ok a -> x = Ok a.
Proof.
  unfold p_handle. destruct x as [b|e]; [congruence|]. destruct e; try discriminate;
    (destruct (p_missing C) as [[|]|]; simpl; discriminate).
Qed.
Lemma p_val_eval C p x b : p_eval C p = Ok (x, b) -> p_val C p = Ok x.
Proof. unfold p_val. intros ->. reflexivity. Qed.
Lemma p_val_ex C p x : p_val C p = Ok x -> exists b, p_eval C p = Ok (x, b).
Proof. unfold p_val. destruct (p_eval C p) as [[y b]|]; simpl; intros H; inversion H; eauto. Qed.

(** inputs of the single contributions *)
Definition p_inputs (C : config) (i0 mu0 muex tau : nd xr) : Prop :=
  c_I0 C = Ok i0 /\ p_mu0 C = Ok mu0 /\ p_muex C = Ok muex /\ p_val C Tau = Ok tau.

Lemma p_surface_inv C s : p_surface C = Ok s ->
  exists i0 mu0 muex tau srf norm bsf, p_inputs C i0 mu0 muex tau /\ p_scat C WSRF = Ok srf /\
    p_val C NormBRDF = Ok norm /\ p_val C Bsf = Ok bsf /\ k_surface i0 mu0 muex srf tau norm bsf = Ok s.
Proof.
  unfold p_surface. intros H. repeat rb H.
  eexists _, _, _, _, _, _, _. unfold p_inputs. eauto 12.
Qed.
Lemma p_volume_inv C s : p_volume C = Ok s ->
  exists i0 mu0 muex tau v om bsf, p_inputs C i0 mu0 muex tau /\ p_scat C WV = Ok v /\
    p_val C Omega = Ok om /\ p_val C Bsf = Ok bsf /\ k_volume i0 om mu0 muex tau v bsf = Ok s.
Proof.
  unfold p_volume. intros H. repeat rb H.
  eexists _, _, _, _, _, _, _. unfold p_inputs. eauto 12.
Qed.
Lemma p_interaction_inv C fe s : p_interaction C fe = Ok s ->
  exists i0 mu0 muex tau om norm bsf f1 f2, p_inputs C i0 mu0 muex tau /\ p_Fint C fe true = Ok f1 /\
    p_Fint C fe false = Ok f2 /\
    p_val C Omega = Ok om /\ p_val C NormBRDF = Ok norm /\ p_val C Bsf = Ok bsf /\
    k_interaction i0 mu0 muex om tau norm bsf f1 f2 = Ok s.
Proof.
  unfold p_interaction. intros H. repeat rb H.
  eexists _, _, _, _, _, _, _, _, _. unfold p_inputs. eauto 15.
Qed.

(** one component, converted *)
Lemma p_convert_el C v a : p_convert C v = Ok a ->
  (forall i0 mu0, c_I0 C = Ok i0 -> p_mu0 C = Ok mu0 -> ble (shp i0) (shp v) /\ ble (shp mu0) (shp v)) ->
  shp a = shp v /\
  (c_sig0 C = true -> exists i0 mu0, c_I0 C = Ok i0 /\ p_mu0 C = Ok mu0) /\
  forall i i0 mu0, c_I0 C = Ok i0 -> p_mu0 C = Ok mu0 -> valid_idx (shp v) i ->
    get a i = x_convert (c_sig0 C) (c_dB C) (bget i0 i) (bget mu0 i) (get v i).
Proof.
  unfold p_convert. intros H Hb. destruct (c_sig0 C) eqn:Es.
  - destruct (p_mu0 C) as [mu0|] eqn:Em; [|discriminate]. destruct (c_I0 C) as [i0|] eqn:Ei; [|discriminate].
    cbn [rbind] in H. destruct (Hb _ _ eq_refl eq_refl) as [B1 B2].
    assert (Sh : shp a = shp v) by (eapply k_convert_shp; [eassumption|auto]).
    split; [exact Sh|]. split; [eauto|]. intros i i0' mu0' X Y Hv. inversion X; inversion Y; subst i0' mu0'.
    rewrite <- (bget_valid a) by congruence. rewrite (k_convert_el _ _ _ _ _ _ _ H), (bget_valid v) by assumption. reflexivity.
  - assert (Sh : shp a = shp v) by (eapply k_convert_shp; [eassumption|discriminate]).
    split; [exact Sh|]. split; [discriminate|]. intros i i0 mu0 _ _ Hv.
    rewrite <- (bget_valid a) by congruence. rewrite (k_convert_el _ _ _ _ _ _ _ H), (bget_valid v) by assumption. reflexivity.
Qed.

Definition nrow (C : config) : nat := if c_intQ C then 4 else 3.
Definition off (C : config) (tau : nd xr) (b : bool) : bool := b && negb (xgt0 (get tau [])).

Lemma k_fix_nan_spec ii tau r : k_fix_nan ii tau = Ok r ->
  shp r = shp ii /\ forall i, valid_idx (shp ii) i ->
    get r i = get ii i \/ (get ii i = NaN /\ get r i = Fin 0%R /\
       forall j, valid_idx (shp ii) j -> (ble (shp tau) (shp ii) -> xis_nan (get ii j) = xis_zero (bget tau j))).
Proof.
  unfold k_fix_nan. destruct (nd_any _) eqn:Ea; [|intros H; inversion H; subst; split; auto].
  destruct (map2 Bool.eqb _ _) as [same|] eqn:Es; [|discriminate]. cbn [rbind].
  destruct (nd_all same) eqn:Eall; [|intros H; inversion H; subst; split; auto].
  intros H; inversion H; subst. split; [reflexivity|]. intros i Hi. cbn [get map1].
  destruct (get ii i) eqn:Eg; simpl; auto. right. repeat split; auto. intros j Hj Hb.
  unfold nd_all in Eall. rewrite forallb_forall in Eall.
  assert (Hs : shp same = shp ii).
  { apply shp_map2 in Es. cbn [shp map1] in Es. rewrite bc_shape_comm in Es. unfold ble in Hb. congruence. }
  specialize (Eall j). rewrite all_idx_valid, Hs in Eall. specialize (Eall Hj).
  rewrite <- (bget_valid same) in Eall by congruence. rewrite (bget_map2 _ _ _ _ j Es), !bget_map1 in Eall.
  rewrite (bget_valid ii) in Eall by assumption. now apply Bool.eqb_prop.
Qed.

Lemma p_calc_rows C fe a : p_calc C fe = Ok a ->
  exists tau b isurf i0 mu0 ivol iint,
    p_eval C Tau = Ok (tau, b) /\ p_surface C = Ok isurf /\ c_I0 C = Ok i0 /\ p_mu0 C = Ok mu0 /\
    ble (shp i0) (shp isurf) /\ ble (shp mu0) (shp isurf) /\
    shp ivol = shp isurf /\
    (if off C tau b then ivol = zeros_like isurf else p_volume C = Ok ivol) /\
    (c_intQ C = true -> shp iint = shp isurf /\
       if off C tau b then iint = zeros_like isurf
       else if b then p_interaction C fe = Ok iint
       else exists ii, p_interaction C fe = Ok ii /\ k_fix_nan ii tau = Ok iint) /\
    shp a = shp isurf ++ [nrow C] /\
    forall i, valid_idx (shp isurf) i ->
      let cv := x_convert (c_sig0 C) (c_dB C) (bget i0 i) (bget mu0 i) in
      get a (i ++ [1]) = cv (get isurf i) /\ get a (i ++ [2]) = cv (get ivol i) /\
      (c_intQ C = true -> get a (i ++ [3]) = cv (get iint i)) /\
      get a (i ++ [0]) = cv (if c_intQ C then xadd (xadd (get isurf i) (get ivol i)) (get iint i)
                             else xadd (get isurf i) (get ivol i)).
Proof.
  intros H. apply p_handle_Ok in H. unfold p_calc_body, p_parts in H.
  destruct (p_eval C Tau) as [[tau b]|] eqn:Et; [|discriminate]. cbn [rbind] in H.
  assert (P : exists isurf ivol iint, p_surface C = Ok isurf /\
     (if off C tau b then ivol = zeros_like isurf else p_volume C = Ok ivol) /\
     (c_intQ C = true -> exists x, iint = Some x /\
       if off C tau b then x = zeros_like isurf
       else if b then p_interaction C fe = Ok x
       else exists ii, p_interaction C fe = Ok ii /\ k_fix_nan ii tau = Ok x) /\
     (let* rows := k_rows isurf ivol (if c_intQ C then iint else None) in p_convert C rows) = Ok a).
  { destruct b.
    - destruct (p_surface C) as [s|] eqn:Es; [|discriminate]. cbn [rbind] in H. unfold off. cbn [andb].
      destruct (xgt0 (get tau [])); cbn [negb].
      + destruct (p_volume C) as [v|] eqn:Ev; [|discriminate]. cbn [rbind] in H.
        destruct (c_intQ C) eqn:Eq.
        * destruct (p_interaction C fe) as [x|] eqn:Ex; [|discriminate]. cbn [rbind] in H.
          exists s, v, (Some x). repeat split; auto. intros _. eauto.
        * cbn [rbind] in H. exists s, v, (Some (mk_nd [1] (fun _ => Fin 0%R))). repeat split; auto. discriminate.
      + cbn [rbind] in H. exists s, (zeros_like s), (Some (zeros_like s)). repeat split; auto. eauto.
    - destruct (p_surface C) as [s|] eqn:Es; [|discriminate]. cbn [rbind] in H. unfold off. cbn [andb].
      destruct (p_volume C) as [v|] eqn:Ev; [|discriminate]. cbn [rbind] in H.
      destruct (c_intQ C) eqn:Eq.
      + destruct (p_interaction C fe) as [x|] eqn:Ex; [|discriminate]. cbn [rbind] in H.
        rewrite (p_val_eval _ _ _ _ Et) in H. cbn [rbind] in H.
        destruct (k_fix_nan x tau) as [y|] eqn:Ey; [|discriminate]. cbn [rbind] in H.
        exists s, v, (Some y). repeat split; auto. intros _. eauto.
      + cbn [rbind] in H. exists s, v, None. repeat split; auto. discriminate. }
  destruct P as (isurf & ivol & iint & Hs & Hv & Hi & HR).
  destruct (k_rows isurf ivol _) as [rows|] eqn:Er; [|discriminate]. cbn [rbind] in HR.
  pose proof Hs as Hs'. apply p_surface_inv in Hs'.
  destruct Hs' as (i0 & mu0 & muex & tau' & srf & norm & bsf & (HI & Hmu & _ & _) & _ & _ & _ & Hk).
  destruct (k_surface_ble _ _ _ _ _ _ _ _ Hk) as (B1 & B2 & _).
  set (io := if c_intQ C then iint else None) in *.
  pose proof (k_rows_spec _ _ _ _ Er) as (Sr & Sv & Si & Hget).
  assert (En : (match io with Some _ => 4 | None => 3 end) = nrow C).
  { unfold nrow, io. destruct (c_intQ C); [|reflexivity]. destruct (Hi eq_refl) as (x & -> & _). reflexivity. }
  rewrite En in Sr.
  exists tau, b, isurf, i0, mu0, ivol, (match iint with Some x => x | None => ivol end).
  repeat (split; [first [assumption|reflexivity]|]).
  split.
  { intros Hq. destruct (Hi Hq) as (x & -> & Hx). unfold io in Si. rewrite Hq in Si. auto. }
  assert (Hc : exists i0' mu0', k_convert (c_sig0 C) (c_dB C) i0' mu0' rows = Ok a /\
               (c_sig0 C = true -> i0' = i0 /\ mu0' = mu0)).
  { unfold p_convert in HR. destruct (c_sig0 C).
    - rewrite Hmu, HI in HR. cbn [rbind] in HR. eauto.
    - exists (num 1), (num 1). split; [assumption|discriminate]. }
  destruct Hc as (i0' & mu0' & Hc & Hc').
  assert (CR := fun k i => convert_row _ _ _ _ _ _ _ _ k i Hc Sr
           (fun X => match Hc' X with conj P Q => eq_ind_r (fun z => ble (shp z) (shp isurf) /\ ble (shp mu0') (shp isurf))
               (conj B1 (eq_ind_r (fun z => ble (shp z) (shp isurf)) B2 Q)) P end)).
  split; [apply (CR 0 []%list)|]. intros i Hv' cv.
  assert (L : length i = length (shp isurf)) by (now apply valid_idx_length).
  destruct (Hget i L) as (G1 & G2 & G3 & G0). specialize (G0 Hv').
  assert (Hcv : forall k, k < nrow C -> get a (i ++ [k]) = cv (get rows (i ++ [k]))).
  { intros k Hk'. destruct (CR k i) as [_ X]. rewrite (X Hk' Hv'). unfold cv, x_convert.
    destruct (c_sig0 C); [|reflexivity]. destruct (Hc' eq_refl) as [-> ->]. reflexivity. }
  assert (3 <= nrow C) by (unfold nrow; destruct (c_intQ C); lia).
  rewrite (Hcv 0), (Hcv 1), (Hcv 2) by lia. rewrite G1, G2, G0.
  split; [reflexivity|]. split; [reflexivity|]. split.
  - intros Hq. destruct (Hi Hq) as (x & Hx & _). rewrite Hcv by (unfold nrow; rewrite Hq; lia).
    unfold io in G3. rewrite Hq, Hx in G3. rewrite (G3 x eq_refl), Hx. reflexivity.
  - unfold io. destruct (c_intQ C) eqn:Hq; [|reflexivity]. destruct (Hi eq_refl) as (x & -> & _). reflexivity.
Qed.
