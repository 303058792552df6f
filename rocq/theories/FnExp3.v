(** Values, symbols and degrees of legendre_expansion, concluded. *)
From Verif Require Import SpecExp.
From Verif Require Export FnExp2.
Open Scope string_scope.
Open Scope nat_scope.
Open Scope list_scope.

Definition nc_of (s : scat) : nat := match ncoefs s with Ok n => n | Err _ => 0 end.
Definition is_basic (s : scat) : Prop := forall c a, s <> LinComb c a.
(** number of terms used for the members of a combination that share [a]: the largest one *)
Definition group_nc (cs : list wchoice) (a : atrip) : nat := list_max (map (fun c => nc_of (snd c)) (filter (same_a a) cs)).
Definition wsum (h : wchoice -> R) (cs : list wchoice) : R := fold_right (fun c acc => (h c + acc)%R) 0%R cs.
(** the truncated Legendre expansion of a distribution function *)
Definition expansion_value (f : string -> R) (s : scat) (t0 tex p0 pex : R) : R :=
  match s with
  | LinComb cs _ =>
      wsum (fun c => evalR f (fst c) *
              leg_series (coef_value f (snd c)) (group_nc cs (scat_a (snd c))) (cos_angle (ev_a f (scat_a (snd c))) t0 tex p0 pex))%R cs
  | _ => leg_series (coef_value f s) (nc_of s) (cos_angle (ev_a f (scat_a s)) t0 tex p0 pex)
  end.

Lemma rmax_cons r r' l : rmax (r :: r' :: l) = (let* x := r in let* y := rmax (r' :: l) in Ok (Nat.max x y)). Proof. reflexivity. Qed.
Lemma rmax_ok l n : rmax l = Ok n -> n = list_max (map (fun r => match r with Ok n => n | Err _ => 0 end) l) /\ Forall (fun r => exists m, r = Ok m) l.
Proof.
  revert n. induction l as [|r l IH]; intros n H; [discriminate H|]. destruct l as [|r' l].
  - simpl in H. subst r. split; [simpl; lia|]. repeat constructor. eauto.
  - rewrite rmax_cons in H. destruct r as [x|]; [|discriminate H]. cbn [rbind] in H.
    destruct (rmax (r' :: l)) as [y|] eqn:E; [|discriminate H]. cbn [rbind] in H. okinv H. destruct (IH y eq_refl) as [A B].
    split; [rewrite A; reflexivity|]. constructor; [eauto|assumption].
Qed.
Lemma rmax_some l : l <> [] -> Forall (fun r => exists m, r = Ok m) l -> exists n, rmax l = Ok n.
Proof.
  induction l as [|r l IH]; [congruence|]. intros _ F. inversion F as [|? ? [m ->] F']; subst. destruct l as [|r' l]; [exists m; reflexivity|].
  assert (Q : r' :: l <> []) by (intros X; discriminate X). destruct (IH Q F') as [n Hn]. rewrite rmax_cons. cbn [rbind]. rewrite Hn. cbn [rbind]. eauto.
Qed.
Lemma wsum_ext h h' cs : (forall c, In c cs -> h c = h' c) -> wsum h cs = wsum h' cs.
Proof. induction cs as [|c cs IH]; simpl; intros H; [reflexivity|]. rewrite (H c), IH; auto. Qed.
Lemma wsum_series f cs n x : leg_series (fun k => wsum (fun c => evalR f (fst c) * coef_value f (snd c) k)%R cs) n x
  = wsum (fun c => evalR f (fst c) * leg_series (coef_value f (snd c)) n x)%R cs.
Proof.
  induction cs as [|c cs IH]; simpl.
  - induction n as [|n IHn]; simpl; [reflexivity|]. rewrite IHn. ring.
  - rewrite <- IH. clear IH. induction n as [|n IHn]; simpl; [ring|]. rewrite IHn. ring.
Qed.

(** keys of the groups *)
Lemma a_groups_key l g : In g (a_groups l) -> exists c, In c (snd g) /\ fst g = scat_a (snd c).
Proof.
  revert g. induction l as [|c l IH] using rev_ind; intros g H; [destruct H|]. rewrite a_groups_snoc in H.
  destruct (gi_elem _ _ _ _ (proj1 (proj2 (a_groups_ok l))) H) as [[I E]|[(cs & I & E & T)|[E N]]].
  - exact (IH _ I).
  - destruct (IH _ I) as (x & X1 & X2). exists x. split; [rewrite E; apply in_or_app; auto|assumption].
  - subst g. exists c. simpl. auto.
Qed.
Lemma a_groups_in l g c : In g (a_groups l) -> In c (snd g) -> In c l /\ same_a (fst g) c = true.
Proof. intros H Hc. destruct (proj1 (a_groups_ok l) g H) as [E _]. rewrite E in Hc. now apply filter_In in Hc. Qed.
Lemma a_groups_nil l : a_groups l = [] -> l = [].
Proof.
  intros H. destruct l as [|c l]; [reflexivity|]. destruct (proj1 (proj2 (proj2 (a_groups_ok (c :: l)))) c (or_introl eq_refl)) as (g & I & _).
  rewrite H in I. destruct I.
Qed.

Lemma group_coef_snoc k cs c : group_coef k (cs ++ [c]) =
  (let* x := group_coef k cs in let* l := legendre_coefficient k (snd c) in Ok (eadd x (emul (at_n k (fst c)) l))).
Proof. unfold group_coef. now rewrite fold_left_app. Qed.
Lemma group_coef_inv k cs e : group_coef k cs = Ok e -> Forall (fun c => is_basic (snd c)) cs.
Proof.
  revert e. induction cs as [|c cs IH] using rev_ind; intros e H; [constructor|]. rewrite group_coef_snoc in H.
  destruct (group_coef k cs) as [x|] eqn:E; [|discriminate H]. cbn [rbind] in H.
  destruct (legendre_coefficient k (snd c)) as [y|] eqn:L; [|discriminate H]. apply Forall_app. split; [eauto|].
  constructor; [|constructor]. intros cs' a X. rewrite X in L. discriminate L.
Qed.
Lemma coef_ok k s : is_basic s -> exists e, legendre_coefficient k s = Ok e.
Proof. intros B. destruct s; try (eexists; reflexivity). destruct (B choices a). reflexivity. Qed.
Lemma group_coef_ok k cs : Forall (fun c => is_basic (snd c)) cs -> exists e, group_coef k cs = Ok e.
Proof.
  induction cs as [|c cs IH] using rev_ind; intros F; [eexists; reflexivity|]. apply Forall_app in F. destruct F as [F1 F2]. inversion F2; subst.
  rewrite group_coef_snoc. destruct (IH F1) as [x ->]. destruct (coef_ok k (snd c) H1) as [y ->]. eexists. reflexivity.
Qed.
Lemma group_coef_ind (C : expr -> Prop) k cs e : C (ENum 0) -> (forall a b, C a -> C b -> C (eadd a b)) -> (forall a b, C a -> C b -> C (emul a b)) ->
  (forall c, In c cs -> C (at_n k (fst c)) /\ forall l, legendre_coefficient k (snd c) = Ok l -> C l) -> group_coef k cs = Ok e -> C e.
Proof.
  intros C0 Ca Cm. revert e. induction cs as [|c cs IH] using rev_ind; intros e Hm H.
  - unfold group_coef in H. simpl in H. okinv H. assumption.
  - rewrite group_coef_snoc in H. destruct (group_coef k cs) as [x|] eqn:E; [|discriminate H]. cbn [rbind] in H.
    destruct (legendre_coefficient k (snd c)) as [y|] eqn:L; [|discriminate H]. cbn [rbind] in H. okinv H.
    destruct (Hm c) as [M1 M2]; [apply in_or_app; simpl; auto|].
    apply Ca; [apply IH; auto; intros; apply Hm; apply in_or_app; auto|]. apply Cm; auto.
Qed.
Definition no_nc (c : wchoice) : Prop := ~ In "n" (syms (fst c)) /\ no_n (snd c).
Lemma group_coef_val f k cs e : Forall no_nc cs -> group_coef k cs = Ok e ->
  evalR f e = wsum (fun c => evalR f (fst c) * coef_value f (snd c) k)%R cs.
Proof.
  revert e. induction cs as [|c cs IH] using rev_ind; intros e F H.
  - unfold group_coef in H. simpl in H. okinv H. apply Q2R_0'.
  - rewrite group_coef_snoc in H. destruct (group_coef k cs) as [x|] eqn:E; [|discriminate H]. cbn [rbind] in H.
    destruct (legendre_coefficient k (snd c)) as [y|] eqn:L; [|discriminate H]. cbn [rbind] in H. okinv H.
    apply Forall_app in F. destruct F as [F1 F2]. inversion F2 as [|? ? [N1 N2] _]; subst.
    unfold wsum. rewrite fr_app. fold (wsum (fun c => evalR f (fst c) * coef_value f (snd c) k)%R cs).
    rewrite ev_eadd, ev_emul, (at_n_id _ _ N1), (IH x F1 eq_refl), (ev_coef f _ _ _ L N2). reflexivity.
Qed.

Section Expansion.
  Context (t_0 t_ex p_0 p_ex : expr).
  Notation lexp := (legendre_expansion t_0 t_ex p_0 p_ex).
  Definition grp_step (acc : res expr) (g : atrip * list wchoice) : res expr :=
    let* x := acc in
    let* nc := rmax (map (fun c => ncoefs (snd c)) (snd g)) in
    let* _ := group_coef 0 (snd g) in
    let* e := leg_sum t_0 t_ex p_0 p_ex (fun k => group_coef k (snd g)) (fst g) nc in
    Ok (eadd x e).
  Lemma lexp_lin cs a e : lexp (LinComb cs a) = Ok e -> cs <> [] /\ fold_left grp_step (a_groups cs) (Ok (ENum 0)) = Ok e.
  Proof.
    intros H. split.
    - intros ->. discriminate H.
    - cbn [legendre_expansion] in H. destruct (a_groups cs) as [|g gs]; [discriminate H|]. exact H.
  Qed.
  Lemma lexp_basic s : is_basic s -> lexp s = (let* nc := ncoefs s in if nc =? 0 then Err AssertionError
        else leg_sum t_0 t_ex p_0 p_ex (fun k => legendre_coefficient k s) (scat_a s) nc).
  Proof. intros B. destruct s; try reflexivity. destruct (B choices a). reflexivity. Qed.
  Lemma grp_step_err gs x : fold_left grp_step gs (Err x) = Err x.
  Proof. induction gs; simpl; auto. Qed.
  Lemma grp_step_inv g x e : grp_step (Ok x) g = Ok e -> exists nc c0 e1,
    rmax (map (fun c => ncoefs (snd c)) (snd g)) = Ok nc /\ group_coef 0 (snd g) = Ok c0 /\
    leg_sum t_0 t_ex p_0 p_ex (fun k => group_coef k (snd g)) (fst g) nc = Ok e1 /\ e = eadd x e1.
  Proof.
    unfold grp_step. cbn [rbind]. destruct (rmax _) as [nc|]; [|discriminate]. cbn [rbind].
    destruct (group_coef 0 (snd g)) as [c0|]; [|discriminate]. cbn [rbind].
    destruct (leg_sum _ _ _ _ _ _ _) as [e1|] eqn:L; [|discriminate]. cbn [rbind]. intros H. okinv H. exists nc, c0, e1. auto.
  Qed.
  Lemma basic_dec s : (exists c a, s = LinComb c a) \/ is_basic s.
  Proof. destruct s; try (right; intros ? ? X; discriminate X). left. eauto. Qed.
  (** the groups of an expansion that succeeded *)
  Lemma grp_fold_basic gs x e : fold_left grp_step gs (Ok x) = Ok e -> Forall (fun g => Forall (fun c => is_basic (snd c)) (snd g)) gs.
  Proof.
    revert x. induction gs as [|g gs IH]; intros x H; [constructor|]. cbn [fold_left] in H.
    destruct (grp_step (Ok x) g) as [y|] eqn:E; [|rewrite grp_step_err in H; discriminate H].
    destruct (grp_step_inv _ _ _ E) as (nc & c0 & e1 & _ & G & _). constructor; [eapply group_coef_inv; eassumption|eauto].
  Qed.
  Lemma lexp_members cs a e : lexp (LinComb cs a) = Ok e -> Forall (fun c => is_basic (snd c)) cs.
  Proof.
    intros H. destruct (lexp_lin _ _ _ H) as [_ F]. apply grp_fold_basic in F. rewrite Forall_forall in *. intros c Hc.
    destruct (proj1 (proj2 (proj2 (a_groups_ok cs))) c Hc) as (g & Hg & Hs). specialize (F g Hg). rewrite Forall_forall in F. apply F.
    rewrite (proj1 (proj1 (a_groups_ok cs) g Hg)). apply filter_In. auto.
  Qed.
  Lemma group_nc_key cs g nc : In g (a_groups cs) -> rmax (map (fun c => ncoefs (snd c)) (snd g)) = Ok nc -> nc = group_nc cs (fst g).
  Proof.
    intros Hg H. apply rmax_ok in H. destruct H as [-> _]. unfold group_nc. rewrite (proj1 (proj1 (a_groups_ok cs) g Hg)), map_map. reflexivity.
  Qed.
  Lemma group_nc_ext cs a b : atrip_eqb a b = true -> group_nc cs a = group_nc cs b.
  Proof.
    intros H. unfold group_nc. f_equal. f_equal. apply filter_ext. intros c. unfold same_a.
    destruct (atrip_eqb b (scat_a (snd c))) eqn:E; [now apply (atrip_trans _ _ _ H)|].
    apply not_true_is_false. intros X. rewrite atrip_sym in H. rewrite (atrip_trans _ _ _ H X) in E. discriminate E.
  Qed.
  Theorem ev_expansion f s e : lexp s = Ok e -> no_n s ->
    evalR f e = expansion_value f s (evalR f t_0) (evalR f t_ex) (evalR f p_0) (evalR f p_ex).
  Proof.
    intros H N. destruct (basic_dec s) as [(cs & a & ->)|B].
    - pose proof (lexp_members _ _ _ H) as MB. destruct (lexp_lin _ _ _ H) as [_ F]. cbn [expansion_value].
      assert (Nm : forall c, In c cs -> no_nc c).
      { intros c Hc. unfold no_n in N. cbn [scat_syms] in N. split; intros X; apply N; apply in_flat_map; exists c; (split; [assumption|apply in_or_app; auto]). }
      set (h := fun c : wchoice => (evalR f (fst c) * leg_series (coef_value f (snd c)) (group_nc cs (scat_a (snd c)))
         (cos_angle (ev_a f (scat_a (snd c))) (evalR f t_0) (evalR f t_ex) (evalR f p_0) (evalR f p_ex)))%R).
      unfold wsum. rewrite <- (proj2 (proj2 (proj2 (a_groups_ok cs))) h).
      assert (G : forall gs x, (forall g, In g gs -> In g (a_groups cs)) -> fold_left grp_step gs (Ok x) = Ok e ->
        evalR f e = (evalR f x + fold_right (fun g acc => (fold_right (fun c acc => (h c + acc)%R) 0%R (snd g) + acc)%R) 0%R gs)%R).
      { induction gs as [|g gs IH]; intros x Hin E; [cbn [fold_left] in E; okinv E; simpl; ring|]. cbn [fold_left] in E.
        destruct (grp_step (Ok x) g) as [y|] eqn:Ey; [|rewrite grp_step_err in E; discriminate E].
        destruct (grp_step_inv _ _ _ Ey) as (nc & c0 & e1 & R & _ & L & ->). rewrite (IH _ (fun g X => Hin g (or_intror X)) E). cbn [fold_right].
        rewrite ev_eadd. assert (Ig : In g (a_groups cs)) by (apply Hin; left; reflexivity).
        rewrite Rplus_assoc. f_equal. f_equal. clear IH E Ey.
        destruct (a_groups_key cs g Ig) as (c1 & C1 & C2).
        assert (Ng : forall k, at_n_a k (fst g) = fst g).
        { intros k. apply at_n_a_id. rewrite C2. intros X. destruct (a_groups_in _ _ _ Ig C1) as [I1 _].
          rewrite Forall_forall in MB. apply (scat_a_syms _ (MB c1 I1)) in X. exact (proj2 (Nm c1 I1) X). }
        assert (LV : evalR f e1 = leg_series (fun k => wsum (fun c => evalR f (fst c) * coef_value f (snd c) k)%R (snd g)) nc
           (cos_angle (ev_a f (fst g)) (evalR f t_0) (evalR f t_ex) (evalR f p_0) (evalR f p_ex))).
        { eapply leg_sum_val; [| |exact L].
          - intros k c _ Hc. apply group_coef_val; [|exact Hc]. apply Forall_forall. intros c' Hc'. apply Nm. exact (proj1 (a_groups_in _ _ _ Ig Hc')).
          - intros k _. rewrite Ng, ev_angle. reflexivity. }
        rewrite LV.
        rewrite wsum_series. change (wsum (fun c => (evalR f (fst c) * leg_series (coef_value f (snd c)) nc
             (cos_angle (ev_a f (fst g)) (evalR f t_0) (evalR f t_ex) (evalR f p_0) (evalR f p_ex)))%R) (snd g) = wsum h (snd g)).
          apply wsum_ext. intros c Hc. unfold h. destruct (a_groups_in _ _ _ Ig Hc) as [_ Sa].
          rewrite (group_nc_key cs g nc Ig R), (group_nc_ext cs _ _ Sa), (atrip_ev f _ _ Sa). reflexivity. }
      rewrite (G _ _ (fun g X => X) F). cbn [evalR]. rewrite Q2R_0'. ring.
    - rewrite (lexp_basic s B) in H. destruct (ncoefs s) as [nc|] eqn:En; [|discriminate H]. cbn [rbind] in H.
      destruct (nc =? 0); [discriminate H|].
      assert (Ev : expansion_value f s (evalR f t_0) (evalR f t_ex) (evalR f p_0) (evalR f p_ex)
         = leg_series (coef_value f s) nc (cos_angle (ev_a f (scat_a s)) (evalR f t_0) (evalR f t_ex) (evalR f p_0) (evalR f p_ex))).
      { unfold nc_of. destruct s; cbn [expansion_value]; unfold nc_of; rewrite ?En; try reflexivity. destruct (B choices a). reflexivity. }
      rewrite Ev. eapply leg_sum_val; [| |exact H].
      + intros k c _ Hc. now apply ev_coef.
      + intros k _. rewrite at_n_a_id, ev_angle; [reflexivity|]. intros X. apply N. now apply (scat_a_syms _ B).
  Qed.
  Definition members (s : scat) : list scat := match s with LinComb cs _ => map snd cs | _ => [s] end.
  Definition weights (s : scat) : list expr := match s with LinComb cs _ => map fst cs | _ => [] end.
  Lemma list_max_in l x : In x l -> x <= list_max l.
  Proof. intros H. induction l as [|y l IH]; simpl in *; [tauto|]. destruct H as [->|H]; [lia|]. specialize (IH H). lia. Qed.
  Lemma group_le cs a N b : ncoefs (LinComb cs b) = Ok N -> group_nc cs a <= N.
  Proof.
    cbn [ncoefs]. intros H. apply rmax_ok in H. destruct H as [-> _]. unfold group_nc. rewrite map_map.
    apply list_max_le. apply Forall_forall. intros x Hx. apply in_map_iff in Hx. destruct Hx as (c & <- & Hc). apply filter_In in Hc.
    apply list_max_in. apply in_map_iff. exists c. split; [reflexivity|tauto].
  Qed.
  Theorem expansion_ind (X C : expr -> Prop) (A : atrip -> Prop) s N e :
    X (ENum 0) -> (forall a b, X a -> X b -> X (eadd a b)) ->
    C (ENum 0) -> (forall a b, C a -> C b -> C (eadd a b)) -> (forall a b, C a -> C b -> C (emul a b)) ->
    (forall m, In m (members s) -> is_basic m -> (forall k c, legendre_coefficient k m = Ok c -> C c) /\ forall k, A (at_n_a k (scat_a m))) ->
    (forall w k, In w (weights s) -> C (at_n k w)) ->
    (forall k c a, k < N -> C c -> A a -> X (emul c (sp_legendre k (calc_scattering_angle t_0 t_ex p_0 p_ex a)))) ->
    lexp s = Ok e -> ncoefs s = Ok N -> X e.
  Proof.
    intros X0 Xa C0 Ca Cm Hm Hw Ht H HN. destruct (basic_dec s) as [(cs & a & ->)|B].
    - pose proof (lexp_members _ _ _ H) as MB. rewrite Forall_forall in MB. destruct (lexp_lin _ _ _ H) as [_ F]. cbn [members weights] in *.
      assert (G : forall gs x, (forall g, In g gs -> In g (a_groups cs)) -> X x -> fold_left grp_step gs (Ok x) = Ok e -> X e).
      { induction gs as [|g gs IH]; intros x Hin Xx E; [cbn [fold_left] in E; okinv E; assumption|]. cbn [fold_left] in E.
        destruct (grp_step (Ok x) g) as [y|] eqn:Ey; [|rewrite grp_step_err in E; discriminate E].
        destruct (grp_step_inv _ _ _ Ey) as (nc & c0 & e1 & R & _ & L & ->).
        assert (Ig : In g (a_groups cs)) by (apply Hin; left; reflexivity).
        apply (IH (eadd x e1)); auto; [intros; apply Hin; right; assumption|]. apply Xa; auto.
        apply (leg_sum_ind t_0 t_ex p_0 p_ex X _ _ _ _ X0 Xa) with (2 := L). intros k c Hk Hc.
        destruct (a_groups_key cs g Ig) as (c1 & C1 & C2). destruct (a_groups_in _ _ _ Ig C1) as [I1 _].
        apply Ht.
        - rewrite (group_nc_key cs g nc Ig R) in Hk. pose proof (group_le cs (fst g) N a HN). lia.
        - revert Hc. apply group_coef_ind; auto. intros c' Hc'. destruct (a_groups_in _ _ _ Ig Hc') as [I' _]. split.
          + apply Hw. now apply in_map.
          + intros l Hl. eapply (proj1 (Hm (snd c') (in_map _ _ _ I') (MB c' I'))). exact Hl.
        - rewrite C2. apply Hm; [now apply in_map|now apply MB]. }
      exact (G _ _ (fun g Y => Y) X0 F).
    - rewrite (lexp_basic s B), HN in H. cbn [rbind] in H. destruct (N =? 0); [discriminate H|].
      assert (M : In s (members s)) by (destruct s; simpl; auto; destruct (B choices a); reflexivity).
      apply (leg_sum_ind t_0 t_ex p_0 p_ex X _ _ _ _ X0 Xa) with (2 := H). intros k c Hk Hc. destruct (Hm s M B) as [M1 M2]. apply Ht; eauto.
  Qed.
  Theorem expansion_ok s N : Forall is_basic (members s) -> ncoefs s = Ok N -> (is_basic s -> 0 < N) -> exists e, lexp s = Ok e.
  Proof.
    intros MB HN P. destruct (basic_dec s) as [(cs & a & ->)|B].
    - cbn [members] in MB. cbn [ncoefs] in HN. pose proof (rmax_ok _ _ HN) as [_ AllN].
      cbn [legendre_expansion]. destruct (a_groups cs) as [|g0 gs0] eqn:E0.
      + apply a_groups_nil in E0. subst cs. discriminate HN.
      + rewrite <- E0. clear E0 g0 gs0.
        change (exists e, fold_left grp_step (a_groups cs) (Ok (ENum 0)) = Ok e).
        assert (G : forall gs x, (forall g, In g gs -> In g (a_groups cs)) -> exists e, fold_left grp_step gs (Ok x) = Ok e).
        { induction gs as [|g gs IH]; intros x Hin; [eexists; reflexivity|]. cbn [fold_left].
          assert (Ig : In g (a_groups cs)) by (apply Hin; left; reflexivity).
          assert (Bg : Forall (fun c => is_basic (snd c)) (snd g)).
          { apply Forall_forall. intros c Hc. rewrite Forall_forall in MB. apply MB. apply in_map. exact (proj1 (a_groups_in _ _ _ Ig Hc)). }
          destruct (rmax_some (map (fun c => ncoefs (snd c)) (snd g))) as [nc Hnc].
          { intros X. apply map_eq_nil in X. exact (proj2 (proj1 (a_groups_ok cs) g Ig) X). }
          { rewrite Forall_map. apply Forall_forall. intros c Hc. rewrite Forall_map, Forall_forall in AllN. apply AllN. exact (proj1 (a_groups_in _ _ _ Ig Hc)). }
          destruct (group_coef_ok 0 _ Bg) as [c0 Hc0].
          destruct (leg_sum_ok t_0 t_ex p_0 p_ex (fun k => group_coef k (snd g)) (fst g) nc) as [e1 He1]; [intros k _; now apply group_coef_ok|].
          unfold grp_step at 2. cbn [rbind]. rewrite Hnc. cbn [rbind]. rewrite Hc0. cbn [rbind]. rewrite He1. cbn [rbind]. apply IH.
          intros; apply Hin; right; assumption. }
        apply G. auto.
    - rewrite (lexp_basic s B), HN. cbn [rbind]. specialize (P B). destruct (Nat.eqb_spec N 0); [lia|]. apply leg_sum_ok. intros k _. now apply coef_ok.
  Qed.
End Expansion.
