(** When calc() returns: shapes that can be broadcast to a common shape (_calc.py:486-583, 1067-1141). *)
From Verif Require Export Interact2 CalcOk Properties10.
From Coq Require Import Lia List.
Open Scope string_scope.
Open Scope nat_scope.
Open Scope list_scope.

Lemma ble_antisym s t : ble s t -> ble t s -> s = t.
Proof. unfold ble. intros A B. rewrite bc_shape_comm in B. congruence. Qed.
Lemma bc_shapes_acc u (l : list (list nat)) : forall a, ble a u -> Forall (fun s => ble s u) l ->
  exists r, fold_left (fun acc s => match acc with Some a => bc_shape a s | None => None end) l (Some a) = Some r /\ ble r u.
Proof.
  induction l as [|s l IH]; intros a Ha H; [exists a; auto|]. inversion H; subst. cbn [fold_left].
  destruct (ble_lub a s u) as (r & -> & Hr); auto.
Qed.
Lemma bc_shapes_total u l : Forall (fun s => ble s u) l -> exists r, bc_shapes l = Some r /\ ble r u.
Proof. intros H. apply bc_shapes_acc; [apply ble_nil|exact H]. Qed.
Lemma bc_shapes_in_acc (l : list (list nat)) : forall a r,
  fold_left (fun acc s => match acc with Some a => bc_shape a s | None => None end) l (Some a) = Some r -> ble a r /\ Forall (fun s => ble s r) l.
Proof.
  induction l as [|s l IH]; intros a r H; cbn [fold_left] in H.
  - injection H as <-. split; [apply ble_refl|constructor].
  - destruct (bc_shape a s) as [b|] eqn:E; [|exfalso; clear - H; induction l; [discriminate|auto]].
    destruct (IH b r H) as [A B]. destruct (bc_ble _ _ _ E) as [C D]. split; [eapply ble_trans; eassumption|]. constructor; [eapply ble_trans; eassumption|exact B].
Qed.
Lemma bc_shapes_in l r : bc_shapes l = Some r -> Forall (fun s => ble s r) l.
Proof. intros H. apply bc_shapes_in_acc in H. apply H. Qed.
Lemma bc_shapes_least l r u : bc_shapes l = Some r -> Forall (fun s => ble s u) l -> ble r u.
Proof. intros H F. destruct (bc_shapes_total u l F) as (r' & E & B). congruence. Qed.
Lemma broadcast_total {A} (l : list (nd A)) u : Forall (fun a => ble (shp a) u) l ->
  exists s, broadcast_arrays l = Ok (map (broadcast_to s) l) /\ bc_shapes (map shp l) = Some s /\ ble s u.
Proof.
  intros F. unfold broadcast_arrays. destruct (bc_shapes_total u (map shp l)) as (s & E & B).
  { rewrite Forall_map. exact F. }
  rewrite E. eauto.
Qed.
Lemma ble_snoc s t n m : length s = length t -> ble s t -> n = m \/ n = 1 -> ble (s ++ [n]) (t ++ [m]).
Proof.
  revert t. induction s as [|d s IH]; intros [|e t] L B H; cbn [List.length] in L; try discriminate.
  - simpl. apply ble_cons. split; [tauto|apply ble_nil].
  - apply ble_cons in B. destruct B as [B1 B2]. simpl. apply ble_cons. split; [exact B1|]. apply IH; auto.
Qed.

(** ** The numerical kernels *)
Ltac blet := first [assumption | apply ble_nil | apply ble_refl | (cbn [shp map1 num scalar npow nexp nneg nlog nexpi nexpn]; first [assumption|apply ble_nil])].
Ltac tot u := unfold nmul, nadd, nsub, ndiv;
  repeat match goal with
  | |- exists c, rbind (map2 ?f ?a ?b) _ = Ok c /\ _ =>
      let c := fresh "c" in let E := fresh "E" in let H := fresh "H" in
      destruct (map2_total f a b u) as (c & E & H); [blet|blet|rewrite E; cbn [rbind]; clear E]
  end; try (apply map2_total; blet).
Section Kernels.
  Context (u : list nat).
  Notation fits a := (ble (shp a) u).
  Lemma k_bare_total i0 mu0 srf : fits i0 -> fits mu0 -> fits srf -> exists c, k_bare i0 mu0 srf = Ok c /\ fits c.
  Proof. intros. unfold k_bare. tot u. Qed.
  Lemma k_atten_total tau mu0 muex : fits tau -> fits mu0 -> fits muex -> exists c, k_atten tau mu0 muex = Ok c /\ fits c.
  Proof.
    intros. unfold k_atten. tot u. all: try (eexists; split; [reflexivity|]; cbn [shp nexp map1]; assumption).
  Qed.
  Lemma k_mix_total a b c0 : fits a -> fits b -> fits c0 -> exists c, k_mix a b c0 = Ok c /\ fits c.
  Proof. intros. unfold k_mix. tot u. Qed.
  Lemma k_surface_total i0 mu0 muex srf tau norm bsf : fits i0 -> fits mu0 -> fits muex -> fits srf -> fits tau -> fits norm -> fits bsf ->
    exists c, k_surface i0 mu0 muex srf tau norm bsf = Ok c /\ fits c.
  Proof.
    intros. unfold k_surface. destruct (k_bare_total i0 mu0 srf) as (b & -> & Hb); auto. cbn [rbind].
    destruct (k_atten_total tau mu0 muex) as (e & -> & He); auto. cbn [rbind].
    unfold nmul at 1. destruct (map2_total xmul e b u) as (s & -> & Hs); auto. cbn [rbind].
    destruct (k_mix_total bsf s b) as (m & -> & Hm); auto. cbn [rbind]. tot u.
  Qed.
  Lemma k_volume_total i0 om mu0 muex tau v bsf : fits i0 -> fits om -> fits mu0 -> fits muex -> fits tau -> fits v -> fits bsf ->
    exists c, k_volume i0 om mu0 muex tau v bsf = Ok c /\ fits c.
  Proof.
    intros. unfold k_volume. assert (V : exists c, k_vol i0 om mu0 muex tau v = Ok c /\ fits c).
    { unfold k_vol. unfold nmul, nadd, nsub, ndiv. destruct (k_atten_total tau mu0 muex) as (e & -> & He); auto. cbn [rbind]. tot u. }
    destruct V as (c & -> & Hc). cbn [rbind]. tot u.
  Qed.
  Lemma k_interaction_total i0 mu0 muex om tau norm bsf f1 f2 : fits i0 -> fits mu0 -> fits muex -> fits om -> fits tau -> fits norm -> fits bsf ->
    fits f1 -> fits f2 -> exists c, k_interaction i0 mu0 muex om tau norm bsf f1 f2 = Ok c /\ fits c.
  Proof. intros. unfold k_interaction. tot u. Qed.
  Lemma k_hlp1_total mu tau : fits mu -> fits tau -> exists c, k_hlp1 mu tau = Ok c /\ fits c.
  Proof. intros. unfold k_hlp1. tot u. Qed.
  Lemma k_inner_total mu tau k : fits mu -> fits tau -> exists c, k_inner mu tau k = Ok c /\ fits c.
  Proof. intros. unfold k_inner. cbv zeta. tot u. Qed.
End Kernels.
Lemma k_inner_ble mu tau k c : k_inner mu tau k = Ok c -> ble (shp mu) (shp c) /\ ble (shp tau) (shp c).
Proof.
  unfold k_inner. cbv zeta. unfold ndiv, nsub, nmul. intros H.
  destruct (map2 xdiv (nneg tau) mu) as [q|] eqn:E1; [cbn [rbind] in H|discriminate].
  destruct (map2 xdiv (nexp q) _) as [e|] eqn:E2; [cbn [rbind] in H|discriminate].
  destruct (map2 xsub _ e) as [d|] eqn:E3; [cbn [rbind] in H|discriminate].
  apply map2_ble in H, E3. destruct H as [A B]. destruct E3 as [D _]. split; [exact A|]. eapply ble_trans; [exact D|exact B].
Qed.
Section Fint.
  Context (mu tau : nd xr) (s2 : list nat).
  Hypothesis (E2 : bc_shape (shp mu) (shp tau) = Some s2).
  Lemma mu_in : ble (shp mu) s2. Proof. apply (bc_ble _ _ _ E2). Qed.
  Lemma tau_in : ble (shp tau) s2. Proof. apply (bc_ble _ _ _ E2). Qed.
  Lemma k_inner_shp k : exists c, k_inner mu tau k = Ok c /\ shp c = s2.
  Proof.
    destruct (k_inner_total s2 mu tau k mu_in tau_in) as (c & E & B). exists c. split; [exact E|].
    destruct (k_inner_ble _ _ _ _ E) as [A1 A2]. apply ble_antisym; [exact B|].
    destruct (ble_lub _ _ _ A1 A2) as (r & Er & Br). congruence.
  Qed.
  Lemma inner_fold l : forall a, ble (shp a) s2 -> (l <> [] \/ shp a = s2) ->
    exists c, fold_left (fun acc k => let* a := acc in let* x := k_inner mu tau k in nadd a x) l (Ok a) = Ok c /\ shp c = s2.
  Proof.
    induction l as [|k l IH]; intros a Ha H; cbn [fold_left].
    - destruct H as [H|H]; [congruence|]. eauto.
    - cbn [rbind]. destruct (k_inner_shp k) as (x & -> & Sx). cbn [rbind]. unfold nadd.
      destruct (map2_total xadd a x s2) as (c & Ec & Bc); [exact Ha|rewrite Sx; apply ble_refl|]. rewrite Ec.
      assert (Sc : shp c = s2) by (apply ble_antisym; [exact Bc|]; rewrite <- Sx; apply (map2_ble _ _ _ _ Ec)).
      apply IH; [rewrite Sc; apply ble_refl|now right].
  Qed.
  Lemma k_inner_sum_shp n : exists c, k_inner_sum mu tau n = Ok c /\ shp c = s2.
  Proof. unfold k_inner_sum. apply inner_fold; [apply ble_nil|]. left. rewrite Nat.add_comm. discriminate. Qed.
  Lemma inner_rows l : exists rows, rmap (k_inner_sum mu tau) l = Ok rows /\ length rows = length l /\ Forall (fun a => shp a = s2) rows.
  Proof.
    induction l as [|n l (rows & E & L & F)]; [exists []; auto|]. destruct (k_inner_sum_shp n) as (c & Ec & Sc).
    exists (c :: rows). cbn [rmap]. rewrite Ec. cbn [rbind]. rewrite E. cbn [rbind]. repeat split; [cbn [List.length]; now rewrite L|]. constructor; auto.
  Qed.
  Lemma stack_shp {A} (l : list (nd A)) sh : l <> [] -> Forall (fun a => shp a = sh) l -> exists s, stack l = Ok s /\ shp s = sh ++ [length l].
  Proof.
    intros N F. destruct (stack_total l sh N F) as (s & E). exists s. split; [exact E|]. destruct l as [|a l]; [congruence|]. unfold stack in E.
    destruct (forallb _ l); [|discriminate]. injection E as <-. cbn [shp]. inversion F. now subst.
  Qed.
  Lemma k_S2_shp n : 0 < n -> exists c, k_S2 n mu tau = Ok c /\ shp c = s2 ++ [n].
  Proof.
    intros Hn. unfold k_S2. destruct (k_hlp1_total s2 mu tau mu_in tau_in) as (h & -> & Bh). cbn [rbind].
    destruct (inner_rows (seq 0 n)) as (rows & -> & L & F). cbn [rbind]. rewrite seq_length in L.
    destruct (stack_shp rows s2) as (s & -> & Ss); [intros ->; cbn [List.length] in L; lia|exact F|]. cbn [rbind]. rewrite L in Ss.
    destruct (map2_eq xadd s h) as (c & Ec & Sc); [rewrite Ss; now apply ble_app|]. exists c. split; [exact Ec|congruence].
  Qed.
  Lemma k_mux_total n : 0 < n -> exists c, k_mux n mu = Ok c /\ shp c = shp mu ++ [n].
  Proof.
    intros Hn. unfold k_mux. destruct (stack_shp (map (fun n => npow mu (n + 1)) (seq 0 n)) (shp mu)) as (s & E & Ss).
    - destruct n; [lia|discriminate].
    - apply Forall_forall. intros a Ha. apply in_map_iff in Ha. destruct Ha as (k & <- & _). reflexivity.
    - rewrite map_length, seq_length in Ss. eauto.
  Qed.
  (** the two leading axes agree, or the second one has size 1 *)
  Lemma k_Fint_total n fns mux u : 0 < n -> k_mux n mu = Ok mux -> ble s2 u -> length s2 = length u -> length (shp mu) = length u ->
    Forall (fun a => ble (shp a) u) fns -> fns <> [] -> u <> [] -> bc_rank (map atleast_1d fns) = length u -> (n = length fns \/ n = 1) ->
    exists c, k_Fint n fns mux mu tau = Ok c /\ ble (shp c) u.
  Proof.
    intros Hn Hm Bu Lu Lm Ff Nf Nu Rk Hl. unfold k_Fint.
    assert (F1 : Forall (fun a => ble (shp a) u) (map atleast_1d fns)).
    { rewrite Forall_map. eapply Forall_impl; [|exact Ff]. intros a Ha. unfold atleast_1d. destruct (shp a) eqn:E; [|exact Ha].
      destruct u; [congruence|]. cbn [shp]. apply ble_cons. split; [now left|apply ble_nil]. }
    destruct (broadcast_total _ _ F1) as (sf & -> & Es & Bs). cbn [rbind]. destruct (k_S2_shp n Hn) as (c2 & -> & S2). cbn [rbind].
    destruct (k_mux_total n Hn) as (mx & Hm' & Sm). rewrite Hm in Hm'. injection Hm' as <-.
    unfold nmul. destruct (map2_total xmul mux c2 (s2 ++ [n])) as (mp & -> & Bmp).
    { rewrite Sm. apply ble_snoc; [lia|apply mu_in|now left]. }
    { rewrite S2. apply ble_refl. }
    cbn [rbind]. set (l := map (broadcast_to sf) (map atleast_1d fns)).
    assert (Ll : length l = length fns) by (unfold l; now rewrite !map_length).
    destruct (stack_shp l sf) as (f & -> & Sf).
    { intros X. rewrite X in Ll. destruct fns; [congruence|discriminate]. }
    { apply Forall_forall. intros a Ha. unfold l in Ha. apply in_map_iff in Ha. destruct Ha as (y & <- & _). reflexivity. }
    cbn [rbind]. rewrite Ll in Sf.
    assert (Lsf : length sf = length u) by (rewrite <- Rk; now apply bc_shapes_rank).
    assert (B1 : ble (shp f) (u ++ [length fns])) by (rewrite Sf; apply ble_snoc; auto).
    assert (B2 : ble (shp mp) (u ++ [length fns])).
    { eapply ble_trans; [exact Bmp|]. apply ble_snoc; [lia|exact Bu|]. destruct Hl; auto. }
    destruct (map2_total xmul f mp (u ++ [length fns]) B1 B2) as (p & Ep & Bp). rewrite Ep. cbn [rbind].
    eexists. split; [reflexivity|]. unfold sum_axis0. cbn [shp].
    pose proof (map2_ble _ _ _ _ Ep) as [Q _]. rewrite Sf in Q. pose proof (ble_length _ _ Q) as Lq. pose proof (ble_length _ _ Bp) as Lp.
    rewrite app_length in Lq, Lp. cbn [List.length] in Lq, Lp.
    destruct (@exists_last _ (shp p)) as (sp & x & Esp); [intros X; rewrite X in Lq; cbn [List.length] in Lq; lia|]. rewrite Esp, removelast_last.
    rewrite Esp in Bp, Lq, Lp. rewrite app_length in Lq, Lp. cbn [List.length] in Lq, Lp. assert (L : length sp = length u) by lia.
    clear - Bp L. revert u L Bp. induction sp as [|d sp IH]; intros [|e u] L B; cbn [List.length] in L; try discriminate; [apply ble_nil|].
    simpl in B. apply ble_cons in B. destruct B as [B1 B2]. apply ble_cons. split; [exact B1|]. apply IH; auto.
  Qed.
End Fint.

(** ** Symbols of the phase functions *)
Lemma over_sign (S : string -> Prop) e : over S e -> over S (ESign e). Proof. intros H s Hs. apply H. exact Hs. Qed.
Ltac ovr := repeat match goal with
  | |- over _ (ENum _) => apply over_num
  | |- over _ EPi => apply over_pi
  | |- over _ (nadir_hemreflect _ _) => apply over_nadir
  | |- over _ (emul _ _) => apply over_emul
  | |- over _ (eadd _ _) => apply over_eadd
  | |- over _ (esub _ _) => apply over_esub
  | |- over _ (ediv _ _) => apply over_ediv
  | |- over _ (epow _ _) => apply over_epow
  | |- over _ (EMul _ _) => apply over_mul
  | |- over _ (EDiv _ _) => apply over_div
  | |- over _ (EP32 _) => apply over_p32
  | |- over _ (ESign _) => apply over_sign
  | H : over _ ?x |- over _ ?x => exact H
  end.
Section PhaseSyms.
  Context (S : string -> Prop) (t : expr) (a : atrip) (X : expr).
  Hypothesis (HX : over S X) (Ht : over S t) (H0 : over S (a0 a)).
  Lemma ov_ray : over S (emul (EDiv (ENum 3) (EMul (ENum 16) EPi)) (eadd (ENum 1) (epow X 2))).
  Proof. ovr. Qed.
  Lemma ov_den : over S (EP32 (hg_den t X)).
  Proof. unfold hg_den. ovr. Qed.
  Lemma ov_hg c : over S c -> over S (ediv (esub (ENum 1) (epow t 2)) (EMul c (EP32 (hg_den t X)))).
  Proof. intros Hc. unfold hg_den. ovr. Qed.
  Lemma ov_hgr : over S (emul (EDiv (ENum 3) (EMul (ENum 8) EPi))
           (ediv (emul (emul (ediv (ENum 1) (eadd (ENum 2) (epow t 2))) (eadd (ENum 1) (epow X 2))) (esub (ENum 1) (epow t 2))) (EP32 (hg_den t X)))).
  Proof. unfold hg_den. ovr. Qed.
  Lemma ov_cos i : over S (emul (EDiv (ENum 1) EPi) (epow (ediv (emul X (eadd (ENum 1) (ESign X))) (ENum 2)) i)).
  Proof. ovr. Qed.
  Lemma ov_hgn : over S (emul (ediv (ENum 1) (nadir_hemreflect t a)) (ediv (esub (ENum 1) (epow t 2)) (EMul EPi (EP32 (hg_den t X))))).
  Proof. unfold hg_den. ovr. Qed.
End PhaseSyms.
Lemma phase_over (S : string -> Prop) : (forall x, In x angle_names -> S x) -> forall s, (forall x, In x (scat_syms s) -> S x) -> over S (phase_function s).
Proof.
  intros Ha.
  assert (HX : forall s, (forall x, In x (a_syms (scat_a s)) -> S x) -> over S (scattering_angle_symbolic s)).
  { intros s H. unfold scattering_angle_symbolic. apply over_angle; try (intros x [<-|[]]; apply Ha; simpl; auto); intros x Hx; apply H; unfold a_syms; rewrite ?in_app_iff; tauto. }
  assert (H0 : forall a, (forall x, In x (a_syms a) -> S x) -> over S (a0 a)).
  { intros a H x Hx. apply H. unfold a_syms. rewrite ?in_app_iff. tauto. }
  assert (L : forall l m, (forall x, In x (l ++ m) -> S x) -> (forall x : string, In x l -> S x)) by (intros l m H x Hx; apply H, in_or_app; auto).
  assert (R : forall l m, (forall x, In x (l ++ m) -> S x) -> (forall x : string, In x m -> S x)) by (intros l m H x Hx; apply H, in_or_app; auto).
  assert (F : over S four_pi) by (intros x []).
  induction s using scat_ind'; cbn [scat_syms]; intros Hs; cbn [phase_function]; cbv zeta.
  - intros x [].
  - apply ov_ray, HX. exact Hs.
  - apply ov_hg; [apply HX; exact (R _ _ Hs)|exact (L _ _ Hs)|exact F].
  - apply ov_hgr; [apply HX; exact (R _ _ Hs)|exact (L _ _ Hs)].
  - intros x [].
  - apply ov_cos, HX. exact Hs.
  - apply ov_hg; [apply HX; exact (R _ _ Hs)|exact (L _ _ Hs)|apply over_pi].
  - apply ov_hgn; [apply HX; exact (R _ _ Hs)|exact (L _ _ Hs)|apply H0; exact (R _ _ Hs)].
  - assert (G : forall l acc, over S acc -> Forall (fun c => (forall x, In x (scat_syms (snd c)) -> S x) -> over S (phase_function (snd c))) l ->
    (forall x, In x (flat_map (fun c => syms (fst c) ++ scat_syms (snd c)) l) -> S x) ->
    over S (fold_left (fun acc cw => eadd acc (emul (fst cw) (phase_function (snd cw)))) l acc)).
    { clear. induction l as [|c l IH]; intros acc Hc F Hl; [exact Hc|]. inversion F; subst. cbn [fold_left]. apply IH; [|assumption|].
      - apply over_eadd; [assumption|]. apply over_emul.
        + intros x Hx. apply Hl. cbn [flat_map]. rewrite !in_app_iff. auto.
        + apply H1. intros x Hx. apply Hl. cbn [flat_map]. rewrite !in_app_iff. auto.
      - intros x Hx. apply Hl. cbn [flat_map]. apply in_or_app. now right. }
    apply G; [apply over_num|assumption|assumption].
Qed.

(** ** Compiled functions *)
Lemma shape_of_sym_ble u vars vals s : Forall (fun a => ble (shp a) u) vals -> ble (shape_of_sym vars vals s) u.
Proof.
  intros F. unfold shape_of_sym. destruct (find _ _) as [[v a]|] eqn:E; [|apply ble_nil]. apply find_some in E. destruct E as [E _].
  apply in_combine_r in E. rewrite Forall_forall in F. now apply F.
Qed.
Lemma eval_sympy_total u vars vals es : Forall (fun a => ble (shp a) u) vals ->
  exists l, rmap (eval_sympy vars vals) es = Ok l /\ length l = length es /\ Forall (fun a => ble (shp a) u) l.
Proof.
  intros F. induction es as [|e es (l & E & L & H)]; [exists []; auto|]. unfold rmap; fold (rmap (eval_sympy vars vals)).
  assert (X : exists a, eval_sympy vars vals e = Ok a /\ ble (shp a) u).
  { unfold eval_sympy. destruct (bc_shapes_total u (map (shape_of_sym vars vals) (syms e))) as (r & -> & B).
    - apply Forall_forall. intros z Hz. apply in_map_iff in Hz. destruct Hz as (s & <- & _). now apply shape_of_sym_ble.
    - eexists. split; [reflexivity|exact B]. }
  destruct X as (a & Ea & Ba). exists (a :: l). cbn [rmap]. rewrite Ea. cbn [rbind]. rewrite E. cbn [rbind].
  split; [reflexivity|]. split; [cbn [List.length]; now rewrite L|]. now constructor.
Qed.
Lemma call_total u k pre pos (kw : dict (nd xr)) : c_vars k = pre ++ dkeys kw -> length pos = length pre -> NoDup (dkeys kw) -> pre <> [] ->
  incl (all_syms (c_exprs k)) (c_vars k) -> Forall (fun a => ble (shp a) u) (pos ++ dvals kw) ->
  exists l, call k pos kw = Ok l /\ length l = length (c_exprs k) /\ Forall (fun a => ble (shp a) u) l.
Proof.
  intros Hv L N Np I F. unfold call. destruct (c_be k).
  - pose proof (bind_sympy_full _ _ _ L N) as Bd. rewrite <- Hv in Bd. rewrite Bd. cbn [rbind]. apply subset_b_incl in I. rewrite I. now apply eval_sympy_total.
  - destruct (c_vars k) as [|v vs] eqn:Ev; [destruct pre; [congruence|discriminate Hv]|].
    pose proof (bind_symengine_full _ _ _ L N) as Bd. rewrite <- Hv in Bd. rewrite Bd. destruct (broadcast_total _ _ F) as (s & -> & Es & Bs). cbn [rbind].
    eexists. split; [reflexivity|]. split; [apply map_length|]. apply Forall_forall. intros a Ha. apply in_map_iff in Ha. destruct Ha as (e & <- & _).
    unfold eval_symengine. cbn [shp]. destruct (pos ++ dvals kw); [apply ble_nil|]. exact Bs.
Qed.
Lemma lambdify_total be seng vars es : (be = Symengine -> seng = true) -> NoDup vars -> incl (all_syms es) vars ->
  lambdify be seng vars es = Ok (mk_comp be vars es).
Proof.
  intros B N I. apply no_dup_b_NoDup in N. apply subset_b_incl in I. unfold lambdify. rewrite N, I. destruct be; [reflexivity|].
  rewrite (B eq_refl). reflexivity.
Qed.
Lemma incl_all_syms es vars : Forall (over (fun s => In s vars)) es -> incl (all_syms es) vars.
Proof.
  intros F s Hs. unfold all_syms in Hs. apply in_flat_map in Hs. destruct Hs as (e & He & Hs). rewrite Forall_forall in F. exact (F e He s Hs).
Qed.

(** ** The evaluations, as functions of the configuration *)
Lemma fn_names_perm x : In x fn_angle_names <-> In x angle_names.
Proof. simpl. tauto. Qed.
Lemma fn_names_NoDup (l : list string) : NoDup (angle_names ++ l) -> NoDup (fn_angle_names ++ l).
Proof.
  intros N. apply NoDup_cons_iff in N as [A1 N]. apply NoDup_cons_iff in N as [A2 N]. apply NoDup_cons_iff in N as [A3 N]. apply NoDup_cons_iff in N as [A4 N].
  cbn [fn_angle_names app]. repeat constructor; auto; simpl in *; intuition (try discriminate).
Qed.
Section Conf.
  Context (C : config) (T : list nat) (V SRF : scat) (kw : dict (nd xr)) (t0 tex p0 pex i0 tau om norm bsf : nd xr) (nV nS : nat).
  Notation fits a := (ble (shp a) T).
  Hypothesis (R1 : p_read C T0 = Ok t0) (R2 : p_read C TEx = Ok tex) (R3 : p_read C P0 = Ok p0) (R4 : p_read C PEx = Ok pex).
  Hypothesis (Rk : p_params C = Ok kw) (Ri : c_I0 C = Ok i0) (RV : c_V C = Ok V) (RS : c_SRF C = Ok SRF).
  Hypothesis (Rt : p_val C Tau = Ok tau) (Ro : p_val C Omega = Ok om) (Rn : p_val C NormBRDF = Ok norm) (Rb : p_val C Bsf = Ok bsf).
  Hypothesis (F1 : fits t0) (F2 : fits tex) (F3 : fits p0) (F4 : fits pex) (Fk : Forall (fun a => fits a) (dvals kw)) (Fi : fits i0).
  Hypothesis (Ft : fits tau) (Fo : fits om) (Fn : fits norm) (Fb : fits bsf).
  Hypothesis (BE : c_backend C = Symengine -> c_seng C = true) (ND : NoDup (angle_names ++ dkeys kw)).
  Hypothesis (SV : forall x, In x (scat_syms V) -> In x (dkeys kw)) (SS : forall x, In x (scat_syms SRF) -> In x (dkeys kw)).
  Hypothesis (Carry : bc_shapes [shp i0; shp t0; shp tex; shp tau; shp bsf] = Some T).
  Lemma kw_nodup : NoDup (dkeys kw). Proof. revert ND. clear. intros N. do 4 (inversion N as [|? ? _ N1]; subst; clear N; rename N1 into N). exact N. Qed.
  Lemma p_scat_total x : exists a, p_scat C x = Ok a /\ fits a.
  Proof.
    unfold p_scat. rewrite R1. cbn [rbind]. rewrite R2. cbn [rbind]. rewrite R3. cbn [rbind]. rewrite R4. cbn [rbind]. rewrite Rk. cbn [rbind].
    assert (X : exists s, (match x with WV => c_V C | WSRF => c_SRF C end) = Ok s /\ forall y, In y (scat_syms s) -> In y (dkeys kw)).
    { destruct x; [exists V|exists SRF]; auto. }
    destruct X as (s & -> & Hs). cbn [rbind].
    assert (I : incl (all_syms [phase_function s]) (angle_names ++ dkeys kw)).
    { apply incl_all_syms. constructor; [|constructor]. apply phase_over; intros y Hy; apply in_or_app; [now left|right; auto]. }
    rewrite (lambdify_total _ _ _ _ BE ND I). cbn [rbind]. unfold call1.
    destruct (call_total T (mk_comp (c_backend C) (angle_names ++ dkeys kw) [phase_function s]) angle_names [t0; tex; p0; pex] kw) as (l & -> & L & F); try reflexivity; auto.
    - apply kw_nodup.
    - discriminate.
    - repeat (constructor; [assumption|]). exact Fk.
    - cbn [rbind]. destruct l as [|a [|]]; try discriminate L. inversion F; subst. eauto.
  Qed.
  Lemma mu0_eq : p_mu0 C = Ok (ncos t0). Proof. unfold p_mu0. rewrite R1. reflexivity. Qed.
  Lemma muex_eq : p_muex C = Ok (ncos tex). Proof. unfold p_muex. rewrite R2. reflexivity. Qed.
  Lemma Fmu0 : fits (ncos t0). Proof. exact F1. Qed.
  Lemma Fmuex : fits (ncos tex). Proof. exact F2. Qed.
  Lemma carried (a : nd xr) : ble (shp i0) (shp a) -> ble (shp t0) (shp a) -> ble (shp tex) (shp a) -> ble (shp tau) (shp a) -> ble (shp bsf) (shp a) -> fits a -> shp a = T.
  Proof. intros A B D E G F. apply ble_antisym; [exact F|]. eapply bc_shapes_least; [exact Carry|]. repeat constructor; assumption. Qed.
  Lemma p_surface_total : exists s, p_surface C = Ok s /\ shp s = T.
  Proof.
    unfold p_surface. rewrite Ri. cbn [rbind]. rewrite mu0_eq. cbn [rbind]. destruct (p_scat_total WSRF) as (srf & -> & Fs). cbn [rbind].
    rewrite Rt. cbn [rbind]. rewrite muex_eq. cbn [rbind]. rewrite Rn. cbn [rbind]. rewrite Rb. cbn [rbind].
    destruct (k_surface_total T i0 (ncos t0) (ncos tex) srf tau norm bsf) as (s & Es & Bs); auto using Fmu0, Fmuex. exists s. split; [exact Es|].
    apply k_surface_ble in Es. destruct Es as (K1 & K2 & K3 & K4 & K5 & K6 & K7). apply carried; auto.
  Qed.
  Lemma p_volume_total : exists s, p_volume C = Ok s /\ shp s = T.
  Proof.
    unfold p_volume. rewrite Ri. cbn [rbind]. rewrite Ro. cbn [rbind]. rewrite mu0_eq. cbn [rbind]. rewrite muex_eq. cbn [rbind]. rewrite Rt. cbn [rbind].
    destruct (p_scat_total WV) as (srf & -> & Fs). cbn [rbind]. rewrite Rb. cbn [rbind].
    destruct (k_volume_total T i0 om (ncos t0) (ncos tex) tau srf bsf) as (s & Es & Bs); auto using Fmu0, Fmuex. exists s. split; [exact Es|].
    apply k_volume_ble in Es. destruct Es as (K1 & K2 & K3 & K4 & K5 & K6 & K7). apply carried; auto.
  Qed.
  (** *** without the interaction *)
  Lemma p_calc_direct_total fe : c_intQ C = false -> exists a, p_calc C fe = Ok a /\ shp (row a 0) = T.
  Proof.
    intros Q. destruct p_surface_total as (s & Es & Ss). destruct p_volume_total as (v & Ev & Sv).
    assert (P : exists v' x', p_parts C fe = Ok (s, v', x') /\ shp v' = shp s).
    { destruct (p_val_ex _ _ _ Rt) as [b Et]. unfold p_parts. rewrite Et. cbn [rbind]. rewrite Es, Ev, Q. cbn [rbind]. destruct b; [destruct (xgt0 _)|].
      - exists v. eexists. split; [reflexivity|congruence].
      - exists (zeros_like s). eexists. split; reflexivity.
      - exists v. eexists. split; [reflexivity|congruence]. }
    destruct P as (v' & x' & E & S1).
    assert (H : exists a, p_calc C fe = Ok a).
    { unfold p_calc, p_calc_body. rewrite E. cbn [rbind]. rewrite Q.
      destruct (k_rows_total s v' None S1) as (rr & -> & Br); [discriminate|]. cbn [rbind].
      destruct (p_convert_total C rr i0 (ncos t0) Ri mu0_eq) as (a & ->); [| |eexists; reflexivity]; (eapply ble_trans; [|exact Br]; rewrite Ss; assumption). }
    destruct H as (a & Ha). exists a. split; [exact Ha|].
    destruct (p_calc_rows _ _ _ Ha) as (tau2 & b2 & isurf & i02 & mu02 & ivol & iint & _ & Es2 & _ & _ & _ & _ & _ & _ & _ & Sa & _).
    rewrite (row_shp _ _ _ 0 Sa). rewrite Es in Es2. injection Es2 as <-. exact Ss.
  Qed.
  (** *** the interaction *)
  Context (fns : list expr).
  Notation k := (mk_comp (c_backend C) (fn_angle_names ++ dkeys kw) fns).
  Hypothesis (Ef : calc_fn V SRF (c_geom C) = Ok fns) (HnV : ncoefs V = Ok nV) (HnS : ncoefs SRF = Ok nS) (PV : 0 < nV) (PS : 0 < nS).
  Hypothesis (Fg : free_angs (c_geom C)) (FV : free_scat V) (FS : free_scat SRF).
  Hypothesis (Gs : forall e, In e [g_t0 (c_geom C); g_tex (c_geom C); g_p0 (c_geom C); g_pex (c_geom C)] -> over (fun s => In s angle_names) e).
  Hypothesis (Lt0 : length (shp t0) = length T) (Ltex : length (shp tex) = length T) (N1 : 1 <= length T).
  Lemma fns_syms : incl (all_syms fns) (fn_angle_names ++ dkeys kw).
  Proof.
    apply incl_all_syms. assert (U : forall e, over (fun s => In s angle_names) e -> over (fun s => In s (fn_angle_names ++ dkeys kw)) e).
    { intros e H s Hs. apply in_or_app. left. apply fn_names_perm. now apply H. }
    eapply (fn_over V SRF (c_geom C) fns Ef nV nS); auto; try (apply U, Gs; simpl; auto).
    - intros x Hx _. apply in_or_app. auto.
    - intros x Hx _. apply in_or_app. auto.
  Qed.
  Lemma fns_length : length fns = Nat.max 2 (nS + nV - 1).
  Proof. eapply (fn_length V SRF (c_geom C)); eassumption. Qed.
  Lemma p_comp_total : c_fnin C = None -> c_fnevin C = None -> c_intQ C = true -> p_fnev C = Ok (Some k).
  Proof.
    intros E1 E2 E3. unfold p_fnev. rewrite E2, E3. unfold p_comp, p_fn. rewrite E1, E3, RV, RS. cbn [rbind]. rewrite Ef. cbn [rbind].
    rewrite <- (p_params_keys _ _ Rk). destruct (c_backend C) eqn:Eb; [|rewrite (BE eq_refl)]; cbn [rbind];
      (rewrite lambdify_total; [reflexivity|auto|apply fn_names_NoDup, ND|apply fns_syms]).
  Qed.
  Hypothesis (Fill : length T = 1 \/ fills k).
  Lemma p_Fint_total first : exists c, p_Fint C (Ok (Some k)) first = Ok c /\ fits c.
  Proof.
    unfold p_Fint. rewrite R1. cbn [rbind]. rewrite R3. cbn [rbind]. rewrite R2. cbn [rbind]. rewrite R4. cbn [rbind]. rewrite Rk. cbn [rbind].
    set (args := (if first then [t0; p0; tex; pex] else [tex; pex; t0; p0]) ++ dvals kw).
    assert (Fa : Forall (fun a => fits a) args) by (unfold args; destruct first; repeat (constructor; [assumption|]); exact Fk).
    assert (La : length args = length (fn_angle_names ++ dkeys kw)) by (unfold args, dvals, dkeys; rewrite !app_length, !map_length; destruct first; reflexivity).
    destruct (broadcast_total _ _ Fa) as (u & -> & Eu & Bu). cbn [rbind].
    set (pos := map (broadcast_to u) args).
    assert (Fp : forall a, In a pos -> shp a = u) by (intros a Ha; unfold pos in Ha; apply in_map_iff in Ha; destruct Ha as (y & <- & _); reflexivity).
    destruct (call_total T k (fn_angle_names ++ dkeys kw) pos []) as (l & El & Ll & Fl); cbn [c_vars c_exprs dkeys dvals map]; rewrite ?app_nil_r; auto.
    { unfold pos. now rewrite map_length. } { constructor. } { discriminate. } { apply fns_syms. }
    { apply Forall_forall. intros a Ha. rewrite (Fp a Ha). exact Bu. }
    rewrite El. cbn [rbind]. cbn [c_exprs] in Ll. unfold p_nmax. rewrite RV, RS. cbn [rbind]. rewrite HnV, HnS. cbn [rbind].
    assert (M : exists mu, (if first then p_mu0 C else p_muex C) = Ok mu /\ fits mu /\ length (shp mu) = length T).
    { destruct first; [exists (ncos t0); rewrite mu0_eq|exists (ncos tex); rewrite muex_eq]; auto. }
    destruct M as (mu & -> & Bm & Lm). cbn [rbind]. rewrite Rt.
    destruct (k_mux_total mu (nV + nS - 1)) as (mux & Em & _); [lia|]. rewrite Em. cbn [rbind].
    destruct (ble_lub _ _ _ Bm Ft) as (s2 & Es2 & Bs2).
    pose proof fns_length as Lf.
    eapply (k_Fint_total mu tau s2 Es2 _ _ _ T); auto; try lia.
    - pose proof (bc_shape_rank _ _ _ Es2) as Rk2. pose proof (ble_length _ _ Ft). lia.
    - intros ->. cbn [List.length] in Ll. lia.
    - intros E. rewrite E in N1. cbn [List.length] in N1. lia.
    - assert (Rl : ranks (length T) l) by (intros a Ha; rewrite Forall_forall in Fl; apply ble_length, Fl, Ha).
      destruct Fill as [L1|Fk'].
      + rewrite L1 in *. apply bc_rank_flat; [|exact Rl]. intros ->. cbn [List.length] in Ll. lia.
      + apply bc_rank_full; auto. destruct (call_fills k pos l u) as (z & Hz & Sz); auto.
        * unfold pos. now rewrite map_length.
        * cbn [c_exprs]. intros E. rewrite E in Lf. cbn [List.length] in Lf. lia.
        * exists z. split; [exact Hz|]. rewrite Sz. pose proof (ble_length _ _ Bu) as X.
          assert (In t0 args) as I0 by (unfold args; destruct first; simpl; auto).
          pose proof (bc_shapes_in _ _ Eu) as Y. rewrite Forall_forall in Y. specialize (Y _ (in_map shp _ _ I0)). apply ble_length in Y. lia.
  Qed.
  Lemma p_interaction_total : exists s, p_interaction C (Ok (Some k)) = Ok s /\ shp s = T.
  Proof.
    unfold p_interaction. destruct (p_Fint_total true) as (f1 & -> & B1). cbn [rbind]. destruct (p_Fint_total false) as (f2 & -> & B2). cbn [rbind].
    rewrite Ri. cbn [rbind]. rewrite mu0_eq. cbn [rbind]. rewrite Ro. cbn [rbind]. rewrite Rt. cbn [rbind]. rewrite muex_eq. cbn [rbind]. rewrite Rn. cbn [rbind]. rewrite Rb. cbn [rbind].
    destruct (k_interaction_total T i0 (ncos t0) (ncos tex) om tau norm bsf f1 f2) as (s & Es & Bs); auto using Fmu0, Fmuex. exists s. split; [exact Es|].
    apply k_interaction_ble in Es. destruct Es as (K1 & K2 & K3 & K4 & K5 & K6 & K7 & K8). apply carried; auto.
  Qed.
  Lemma p_calc_total : c_intQ C = true -> exists a, p_calc C (Ok (Some k)) = Ok a /\ shp (row a 0) = T.
  Proof.
    intros Q. destruct p_surface_total as (s & Es & Ss). destruct p_volume_total as (v & Ev & Sv). destruct p_interaction_total as (x & Ex & Sx).
    assert (H : exists a, p_calc C (Ok (Some k)) = Ok a).
    { destruct (p_val_ex _ _ _ Rt) as [b Et]. destruct b.
      2:{ eapply p_calc_ok; try eassumption; congruence. }
      assert (P : exists v' x', p_parts C (Ok (Some k)) = Ok (s, v', Some x') /\ shp v' = shp s /\ shp x' = shp s).
      { unfold p_parts. rewrite Et. cbn [rbind]. rewrite Es. cbn [rbind]. destruct (xgt0 _).
        - rewrite Ev. cbn [rbind]. rewrite Q, Ex. cbn [rbind]. exists v, x. repeat split; congruence.
        - exists (zeros_like s), (zeros_like s). auto. }
      destruct P as (v' & x' & E & S1 & S2). unfold p_calc, p_calc_body. rewrite E. cbn [rbind]. rewrite Q.
      destruct (k_rows_total s v' (Some x') S1) as (rr & -> & Br); [intros z Hz; now inversion Hz; subst|]. cbn [rbind].
      destruct (p_convert_total C rr i0 (ncos t0) Ri mu0_eq) as (a & ->); [| |eexists; reflexivity]; (eapply ble_trans; [|exact Br]; rewrite Ss; assumption). }
    destruct H as (a & Ha). exists a. split; [exact Ha|].
    destruct (p_calc_rows _ _ _ Ha) as (tau2 & b2 & isurf & i02 & mu02 & ivol & iint & _ & Es2 & _ & _ & _ & _ & _ & _ & _ & Sa & _).
    rewrite (row_shp _ _ _ 0 Sa). rewrite Es in Es2. injection Es2 as <-. exact Ss.
  Qed.
End Conf.
